(** L_Path: spellings of a path. *)
From Verif Require Import M_Disk L_Json.
From Coq Require Import Ascii.
Open Scope nat_scope.

Lemma split_at b : forall a acc, split slash acc (a ++ slash :: b) = split slash acc a ++ split slash [] b.
Proof.
  induction a as [|c a IH]; intros acc; cbn [app split].
  - rewrite Ascii.eqb_refl. reflexivity.
  - destruct (Ascii.eqb c slash); [|apply IH]. cbn [app]. now rewrite IH.
Qed.
Lemma abs_same a b b' : match a ++ slash :: b with c :: _ => Ascii.eqb c slash | [] => false end = match a ++ slash :: b' with c :: _ => Ascii.eqb c slash | [] => false end.
Proof. destruct a; reflexivity. Qed.
(** Doubled slashes and components "." do not change the file that is meant. *)
Lemma path_spelling a b : path_of (a ++ slash :: slash :: b) = path_of (a ++ slash :: b) /\ path_of (a ++ slash :: dot :: slash :: b) = path_of (a ++ slash :: b).
Proof.
  split; unfold path_of; f_equal; try apply abs_same.
  - rewrite !split_at, !filter_app. f_equal.
  - rewrite !split_at, !filter_app. f_equal.
Qed.
(** The components are the parts between the slashes that are neither empty nor ".". *)
Lemma path_component a b : (forall c, In c b -> c <> slash) -> b <> [] -> b <> [dot] -> p_name (path_of (a ++ slash :: b)) = b /\ p_dir (path_of (a ++ slash :: b)) = path_of (a ++ [slash]).
Proof.
  intros H N1 N2.
  assert (Sp : forall acc, split slash acc b = [rev acc ++ b]).
  { clear N1 N2. induction b as [|c b IH]; intros acc; cbn [split]; [now rewrite app_nil_r|].
    destruct (Ascii.eqb_spec c slash) as [E|E]; [exfalso; apply (H c); [now left|exact E]|]. rewrite IH by (intros x Hx; apply H; now right). cbn [rev]. now rewrite <- app_assoc. }
  assert (K : filter (fun w => negb (text_eqb w [] || text_eqb w [dot])) (split slash [] b) = [b]).
  { rewrite Sp. cbn [rev app filter]. destruct (text_eqb b []) eqn:E; [apply text_eqb_eq in E; contradiction|]. destruct (text_eqb b [dot]) eqn:E2; [apply text_eqb_eq in E2; contradiction|]. reflexivity. }
  unfold p_name, p_dir, path_of. cbn [p_parts p_abs]. rewrite split_at, filter_app, K. split; [apply last_last|]. rewrite removelast_last. f_equal.
  - destruct a; reflexivity.
  - rewrite split_at, filter_app. cbn [split filter]. now rewrite app_nil_r.
Qed.
