(** L_Object: proofs about equality, hashing and sharing. *)
From Verif Require Export S_Object.
From Coq Require Import String List Arith Bool Lia.
Import ListNotations.

Lemma all_eqb_iff {A} (eqb : A -> A -> bool) l m : all_eqb eqb l m = true <-> Forall2 (fun x y => eqb x y = true) l m.
Proof.
  revert m; induction l as [|x l IH]; intros [|y m]; cbn; try (split; [discriminate|intros H; inversion H]).
  - split; constructor.
  - rewrite andb_true_iff, IH. split; [intros [H1 H2]; constructor; assumption|intros H; inversion H; auto].
Qed.
Lemma Forall2_eq {A} (l m : list A) : Forall2 eq l m -> l = m.
Proof. induction 1; congruence. Qed.
Lemma names_eqb l m : all_eqb String.eqb l m = true <-> l = m.
Proof.
  rewrite all_eqb_iff. split.
  - intros H. apply Forall2_eq. induction H as [|a b l m E H IH]; constructor; [apply String.eqb_eq; exact E|exact IH].
  - intros ->. induction m; constructor; auto. apply String.eqb_refl.
Qed.

Lemma key_same x y : sf_same x y = true -> is_neg0 x = false -> is_neg0 y = false -> sf_key x = sf_key y.
Proof. unfold sf_same, sf_key. intros H1 H2 H3. apply Qceqb_eq in H1. congruence. Qed.

Lemma bytes_same enc p q : all_eqb (all_eqb sf_same) p q = true -> no_neg0 p -> no_neg0 q -> bytes enc p = bytes enc q.
Proof.
  intros H. apply all_eqb_iff in H. unfold bytes. induction H as [|r1 r2 p q Hr H IH]; intros Hp Hq; [reflexivity|]. cbn [map concat]. f_equal.
  - apply all_eqb_iff in Hr. assert (HA : forall x, In x r1 -> is_neg0 x = false) by (intros x Hx; eapply Hp; [left; reflexivity|exact Hx]).
    assert (HB : forall x, In x r2 -> is_neg0 x = false) by (intros x Hx; eapply Hq; [left; reflexivity|exact Hx]). clear -Hr HA HB.
    induction Hr as [|x y r1 r2 Hxy Hr IH]; [reflexivity|]. cbn [map concat]. f_equal.
    + rewrite (key_same x y Hxy); [reflexivity|apply HA; left; reflexivity|apply HB; left; reflexivity].
    + apply IH; intros; [apply HA|apply HB]; right; assumption.
  - apply IH; intros r x Hr' Hx; [eapply Hp|eapply Hq]; try (right; exact Hr'); exact Hx.
Qed.

Lemma hash_equal enc hash c d : fc_eqb c d = true -> no_neg0 (fc_p c) -> no_neg0 (fc_p d) -> fc_hash enc hash c = fc_hash enc hash d.
Proof.
  unfold fc_eqb. rewrite andb_true_iff, names_eqb. intros [H1 H2] Hc Hd. unfold fc_hash. rewrite H2. f_equal. f_equal. exact (bytes_same enc _ _ H1 Hc Hd).
Qed.
Lemma hash_equal_hmm enc hash c d : fh_eqb c d = true -> no_neg0 (fh_p c) -> no_neg0 (fh_p d) -> no_neg0 (fh_e c) -> no_neg0 (fh_e d) ->
  fh_hash enc hash c = fh_hash enc hash d.
Proof.
  unfold fh_eqb. rewrite !andb_true_iff, !names_eqb. intros [[[H1 H2] H3] H4] A B C D. unfold fh_hash.
  rewrite H3, H4, (bytes_same enc _ _ H1 A B), (bytes_same enc _ _ H2 C D). reflexivity.
Qed.

(** With a negative zero: equal chains whose hashes differ, whenever the bytes of
    0.0 and -0.0 differ and the hash does not collide. *)
Definition fz (neg : bool) : sfloat := mksf 0 neg.
Definition f1' : sfloat := mksf 1 false.
Definition chz (neg : bool) : fchain := mkfchain [[fz neg; f1']; [f1'; fz false]] ["a"; "b"]%string.
Lemma hash_differs : exists c d, fc_eqb c d = true /\
  forall enc hash, enc (0%Qc, false) <> enc (0%Qc, true) -> length (enc (0%Qc, false)) = length (enc (0%Qc, true)) ->
    (forall x y, hash x = hash y -> x = y) -> fc_hash enc hash c <> fc_hash enc hash d.
Proof.
  exists (chz false), (chz true). split; [vm_compute; reflexivity|]. intros enc hash He Hl Hh E. apply He.
  assert (K1 : sf_key (fz false) = (0%Qc, false)) by reflexivity. assert (K2 : sf_key (fz true) = (0%Qc, true)) by reflexivity.
  apply Hh in E. assert (E' := f_equal fst E). cbn [fst chz fc_p map concat] in E'. rewrite <- !app_assoc in E'. rewrite K1, K2 in E'.
  apply (f_equal (firstn (length (enc (0%Qc, false))))) in E'. rewrite firstn_app, firstn_all, Nat.sub_diag, firstn_O, app_nil_r in E'.
  rewrite Hl, firstn_app, firstn_all, Nat.sub_diag, firstn_O, app_nil_r in E'. exact E'.
Qed.

(** ** Sharing *)
Inductive place := KP | KS | KC | KF.

Record good (kd : nat -> place) (w : world) : Prop := {
  g_obj : forall o, In o (w_objs w) -> o_p o < length (w_heap w) /\ kd (o_p o) = KP /\ o_states o < length (w_heap w) /\ kd (o_states o) = KS
            /\ forall e, In e (o_cache o) -> snd e < length (w_heap w) /\ kd (snd e) = KC;
  g_held : forall o r, In (o, r) (w_held w) -> ref_loc r < length (w_heap w) /\
            match o with
            | FromArgument | FromStates => kd (ref_loc r) = KS /\ r = RWhole (ref_loc r)
            | FromRow => kd (ref_loc r) = KP
            | FromCopy => kd (ref_loc r) = KF
            | FromCache _ => kd (ref_loc r) = KC
            end }.

Lemma put_length {A} n (x : A) l : length (put n x l) = length l.
Proof. revert n; induction l as [|y l IH]; intros [|n]; cbn; auto. Qed.
Lemma put_neq {A} n m (x : A) l : m <> n -> nth_error (put n x l) m = nth_error l m.
Proof. revert n m; induction l as [|y l IH]; intros [|n] [|m] H; cbn; auto; try contradiction. Qed.
Lemma put_in {A} n (x : A) l y : In y (put n x l) -> y = x \/ In y l.
Proof. revert n; induction l as [|z l IH]; intros [|n] H; cbn in *; auto; [destruct H; auto|]. destruct H as [->|H]; auto. apply IH in H. destruct H; auto. Qed.
Lemma put_eq {A} n (x : A) l : n < length l -> nth_error (put n x l) n = Some x.
Proof. revert n; induction l as [|y l IH]; intros [|n] H; cbn in *; try lia; auto. apply IH. lia. Qed.

Section Sharing.
Variable cached_value computed_value : nat -> mat -> list string -> cell.
Variable derived : nat -> mat -> mat.
Notation act := (act cached_value computed_value derived).
Notation history := (history cached_value computed_value derived).
Notation avoids := (avoids cached_value computed_value derived).

Definition ext (kd : nat -> place) (n : nat) (k : place) : nat -> place := fun x => if Nat.eqb x n then k else kd x.
Lemma ext_new kd n k : ext kd n k n = k.
Proof. unfold ext. rewrite Nat.eqb_refl. reflexivity. Qed.
Lemma ext_old kd n k x : x < n -> ext kd n k x = kd x.
Proof. intros H. unfold ext. destruct (Nat.eqb_spec x n); [lia|reflexivity]. Qed.

Lemma build_good p names given : good (fun x => if Nat.eqb x 0 then KP else KS) (build p names given).
Proof.
  constructor; cbn [build w_objs w_heap w_held].
  - intros o [<-|[]]. cbn. repeat split; try lia; intros e [].
  - intros o r H. destruct given; [destruct H as [E|[]]; inversion E; subst; cbn; auto|destruct H].
Qed.

(** Adding fresh cells at the end of the heap. *)
Lemma good_app kd kd' w cells held : good kd w ->
  (forall x, x < length (w_heap w) -> kd' x = kd x) ->
  (forall o r, In (o, r) held -> In (o, r) (w_held w) \/ (ref_loc r < length (w_heap w) + length cells /\
     match o with FromArgument | FromStates => kd' (ref_loc r) = KS /\ r = RWhole (ref_loc r) | FromRow => kd' (ref_loc r) = KP | FromCopy => kd' (ref_loc r) = KF | FromCache _ => kd' (ref_loc r) = KC end)) ->
  forall objs, (forall o, In o objs -> In o (w_objs w) \/ (o_p o < length (w_heap w) + length cells /\ kd' (o_p o) = KP /\ o_states o < length (w_heap w) + length cells /\ kd' (o_states o) = KS
       /\ forall e, In e (o_cache o) -> snd e < length (w_heap w) + length cells /\ kd' (snd e) = KC)) ->
  good kd' (mkworld (w_heap w ++ cells) objs held).
Proof.
  intros [G1 G2] HK HH objs HO. constructor; cbn [w_objs w_heap w_held]; rewrite app_length.
  - intros o Ho. destruct (HO o Ho) as [H|H]; [|exact H]. destruct (G1 o H) as (A & B & C & D & E). rewrite !HK by assumption. repeat split; try lia; auto; intros; [destruct (E e H0); lia|].
    destruct (E e H0). rewrite HK by assumption. assumption.
  - intros o r Hr. destruct (HH o r Hr) as [H|H]; [|exact H]. destruct (G2 o r H) as (A & B). rewrite HK by assumption. split; [lia|exact B].
Qed.

Lemma good_put kd w l c held objs : good kd w -> held = w_held w -> objs = w_objs w -> good kd (mkworld (put l c (w_heap w)) objs held).
Proof. intros [G1 G2] -> ->. constructor; cbn [w_objs w_heap w_held]; rewrite put_length; assumption. Qed.

Lemma act_good kd w a : good kd w -> exists kd', good kd' (act w a) /\ forall x, x < length (w_heap w) -> kd' x = kd x.
Proof.
  intros G. assert (Hsame : exists kd', good kd' w /\ forall x, x < length (w_heap w) -> kd' x = kd x) by (exists kd; auto).
  destruct a as [x|x|x i|x k|x k|x k|x k names|n m|n r|n s]; cbn [M_Object.act].
  - destruct (nth_error (w_objs w) x) as [o|] eqn:E; [|exact Hsame]. exists (ext kd (length (w_heap w)) KF). split; [|intros; apply ext_old; assumption].
    apply good_app with kd; auto; [intros; apply ext_old; assumption|]. intros o' r [H|H]; [right|left; exact H]. inversion H; subst. cbn. rewrite ext_new. split; [lia|reflexivity].
  - destruct (nth_error (w_objs w) x) as [o|] eqn:E; [|exact Hsame]. exists kd. split; [|auto]. apply nth_error_In in E. destruct (g_obj kd w G o E) as (A & B & C & D & F).
    rewrite <- (app_nil_r (w_heap w)). apply good_app with kd; auto. intros o' r [H|H]; [right|left; exact H]. inversion H; subst. cbn. repeat split; [lia|exact D].
  - destruct (nth_error (w_objs w) x) as [o|] eqn:E; [|exact Hsame]. exists kd. split; [|auto]. apply nth_error_In in E. destruct (g_obj kd w G o E) as (A & B & C & D & F).
    rewrite <- (app_nil_r (w_heap w)). apply good_app with kd; auto. intros o' r [H|H]; [right|left; exact H]. inversion H; subst. cbn. split; [lia|exact B].
  - destruct (nth_error (w_objs w) x) as [o|] eqn:E; [|exact Hsame]. apply nth_error_In in E. destruct (g_obj kd w G o E) as (A & B & C & D & F).
    destruct (find _ (o_cache o)) as [[k' l]|] eqn:EF.
    + exists kd. split; [|auto]. apply find_some in EF. destruct EF as [EF _]. destruct (F _ EF) as [F1 F2]. cbn in F1, F2.
      rewrite <- (app_nil_r (w_heap w)). apply good_app with kd; auto. intros o' r [H|H]; [right|left; exact H]. inversion H; subst. cbn. split; [lia|exact F2].
    + exists (ext kd (length (w_heap w)) KC). split; [|intros; apply ext_old; assumption]. apply good_app with kd; auto.
      * intros; apply ext_old; assumption.
      * intros o' r [H|H]; [right|left; exact H]. inversion H; subst. cbn. rewrite ext_new. split; [lia|reflexivity].
      * intros o' Ho. apply put_in in Ho. destruct Ho as [->|Ho]; [right|left; exact Ho]. cbn [o_p o_states o_cache length]. rewrite !ext_old by assumption. repeat split; try lia; auto.
        -- destruct H as [<-|H]; [cbn; lia|]. destruct (F e H). lia.
        -- destruct H as [<-|H]; [apply ext_new|]. destruct (F e H). rewrite ext_old by assumption. assumption.
  - destruct (nth_error (w_objs w) x) as [o|] eqn:E; [|exact Hsame]. exists (ext kd (length (w_heap w)) KF). split; [|intros; apply ext_old; assumption].
    apply good_app with kd; auto; [intros; apply ext_old; assumption|]. intros o' r [H|H]; [right|left; exact H]. inversion H; subst. cbn. rewrite ext_new. split; [lia|reflexivity].
  - destruct (nth_error (w_objs w) x) as [o|] eqn:E; [|exact Hsame]. apply nth_error_In in E. destruct (g_obj kd w G o E) as (A & B & C & D & F).
    exists (ext kd (length (w_heap w)) KP). split; [|intros; apply ext_old; assumption]. apply good_app with kd; auto; [intros; apply ext_old; assumption|].
    intros o' Ho. apply in_app_iff in Ho. destruct Ho as [Ho|[<-|[]]]; [left; exact Ho|right]. cbn [o_p o_states o_cache length]. rewrite ext_new, ext_old by assumption. repeat split; try lia; auto; intros; contradiction.
  - destruct (nth_error (w_objs w) x) as [o|] eqn:E; [|exact Hsame]. apply nth_error_In in E. destruct (g_obj kd w G o E) as (A & B & C & D & F).
    exists (ext (ext kd (length (w_heap w)) KP) (S (length (w_heap w))) KS).
    assert (HK : forall y, y < length (w_heap w) -> ext (ext kd (length (w_heap w)) KP) (S (length (w_heap w))) KS y = kd y) by (intros y Hy; rewrite ext_old by lia; apply ext_old; exact Hy).
    split; [|exact HK]. apply good_app with kd; auto.
    intros o' Ho. apply in_app_iff in Ho. destruct Ho as [Ho|[<-|[]]]; [left; exact Ho|right]. cbn [o_p o_states o_cache length]. rewrite ext_new, ext_old, ext_new by lia. repeat split; try lia; auto; intros; contradiction.
  - destruct (nth_error (w_held w) n) as [[o [l|l i]]|] eqn:E; try exact Hsame. destruct (nth_error (w_heap w) l) as [[]|]; try exact Hsame. exists kd. split; [apply good_put; auto|auto].
  - destruct (nth_error (w_held w) n) as [[o [l|l i]]|] eqn:E; try exact Hsame. destruct (nth_error (w_heap w) l) as [[]|]; try exact Hsame. exists kd. split; [apply good_put; auto|auto].
  - destruct (nth_error (w_held w) n) as [[o [l|l i]]|] eqn:E; try exact Hsame. destruct (nth_error (w_heap w) l) as [[]|]; try exact Hsame. exists kd. split; [apply good_put; auto|auto].
Qed.

(** Which origins reach which places. *)
Definition reaches (k : place) (o : origin) : Prop :=
  match o with FromArgument | FromStates => k = KS | FromRow => k = KP | FromCopy => k = KF | FromCache _ => k = KC end.
Definition guarded (k : place) : origin -> Prop := fun o => reaches k o.

(** An action that writes to nothing of the place of l leaves the cell l alone. *)
Lemma act_cell kd w a l : good kd w -> l < length (w_heap w) -> (forall o, written w a = Some o -> ~ reaches (kd l) o) ->
  nth_error (w_heap (act w a)) l = nth_error (w_heap w) l.
Proof.
  intros G Hl HW. assert (Happ : forall cells, nth_error (w_heap w ++ cells) l = nth_error (w_heap w) l) by (intros; apply nth_error_app1; exact Hl).
  assert (Hput : forall n c o r, nth_error (w_held w) n = Some (o, r) -> written w a = Some o -> nth_error (put (ref_loc r) c (w_heap w)) l = nth_error (w_heap w) l).
  { intros n c o r Hn Hw. apply put_neq. intros ->. apply nth_error_In in Hn. destruct (g_held kd w G o r Hn) as (_ & Hk). apply (HW o Hw). unfold reaches. destruct o; tauto. }
  destruct a as [x|x|x i|x k|x k|x k|x k names|n m|n r|n s]; cbn [M_Object.act].
  1-7: destruct (nth_error (w_objs w) x) as [o|]; try reflexivity; cbn [w_heap]; try apply Happ; try reflexivity.
  - destruct (find _ (o_cache o)) as [[k' l']|]; cbn [w_heap]; [reflexivity|apply Happ].
  - destruct (nth_error (w_held w) n) as [[o [l'|l' i]]|] eqn:E; try reflexivity. destruct (nth_error (w_heap w) l') as [[]|]; try reflexivity. cbn [w_heap]. eapply (Hput n _ o (RWhole l') E). cbn [written]. rewrite E. reflexivity.
  - destruct (nth_error (w_held w) n) as [[o [l'|l' i]]|] eqn:E; try reflexivity. destruct (nth_error (w_heap w) l') as [[]|]; try reflexivity. cbn [w_heap]. eapply (Hput n _ o (RRow l' i) E). cbn [written]. rewrite E. reflexivity.
  - destruct (nth_error (w_held w) n) as [[o [l'|l' i]]|] eqn:E; try reflexivity. destruct (nth_error (w_heap w) l') as [[]|]; try reflexivity. cbn [w_heap]. eapply (Hput n _ o (RWhole l') E). cbn [written]. rewrite E. reflexivity.
Qed.

Lemma act_heap_grows w a : length (w_heap w) <= length (w_heap (act w a)).
Proof.
  destruct a as [x|x|x i|x k|x k|x k|x k names|n m|n r|n s]; cbn [M_Object.act].
  1-7: destruct (nth_error (w_objs w) x) as [o|]; try lia; cbn [w_heap]; rewrite ?app_length; try lia.
  - destruct (find _ (o_cache o)) as [[k' l']|]; cbn [w_heap]; rewrite ?app_length; lia.
  - destruct (nth_error (w_held w) n) as [[o [l'|l' i]]|]; try lia. destruct (nth_error (w_heap w) l') as [[]|]; try lia. cbn [w_heap]. rewrite put_length. lia.
  - destruct (nth_error (w_held w) n) as [[o [l'|l' i]]|]; try lia. destruct (nth_error (w_heap w) l') as [[]|]; try lia. cbn [w_heap]. rewrite put_length. lia.
  - destruct (nth_error (w_held w) n) as [[o [l'|l' i]]|]; try lia. destruct (nth_error (w_heap w) l') as [[]|]; try lia. cbn [w_heap]. rewrite put_length. lia.
Qed.

(** Objects keep their matrix, their names and the cached results they have. *)
Definition same_obj (o o' : obj) : Prop := o_p o' = o_p o /\ o_states o' = o_states o
  /\ forall k e, find (fun e => Nat.eqb (fst e) k) (o_cache o) = Some e -> find (fun e => Nat.eqb (fst e) k) (o_cache o') = Some e.
Lemma act_obj w a x o : nth_error (w_objs w) x = Some o -> exists o', nth_error (w_objs (act w a)) x = Some o' /\ same_obj o o'.
Proof.
  intros H. assert (Hs : same_obj o o) by (repeat split; auto). assert (Hlt : x < length (w_objs w)) by (apply nth_error_Some; congruence).
  destruct a as [y|y|y i|y k|y k|y k|y k names|n m|n r|n s]; cbn [M_Object.act].
  1-3, 5: destruct (nth_error (w_objs w) y); exists o; auto.
  - destruct (nth_error (w_objs w) y) as [oy|] eqn:Ey; [|exists o; auto]. destruct (find _ (o_cache oy)) as [[k' l']|] eqn:EF; [exists o; auto|]. cbn [w_objs].
    destruct (Nat.eq_dec x y) as [->|Hne]; [|exists o; rewrite put_neq by exact Hne; auto]. rewrite put_eq by exact Hlt. eexists. split; [reflexivity|].
    rewrite H in Ey. inversion Ey; subst oy. repeat split; auto. intros k0 e He. cbn [o_cache find fst]. destruct (Nat.eqb_spec k k0) as [->|Hk]; [|exact He].
    rewrite He in EF. destruct e; discriminate.
  - destruct (nth_error (w_objs w) y); exists o; [|auto]. cbn [w_objs]. rewrite nth_error_app1 by exact Hlt. auto.
  - destruct (nth_error (w_objs w) y); exists o; [|auto]. cbn [w_objs]. rewrite nth_error_app1 by exact Hlt. auto.
  - exists o. destruct (nth_error (w_held w) n) as [[o' [l'|l' i]]|]; auto. destruct (nth_error (w_heap w) l') as [[]|]; auto.
  - exists o. destruct (nth_error (w_held w) n) as [[o' [l'|l' i]]|]; auto. destruct (nth_error (w_heap w) l') as [[]|]; auto.
  - exists o. destruct (nth_error (w_held w) n) as [[o' [l'|l' i]]|]; auto. destruct (nth_error (w_heap w) l') as [[]|]; auto.
Qed.

Lemma history_keeps acts : forall (forbidden : origin -> Prop) kp kd w x o, good kd w -> nth_error (w_objs w) x = Some o ->
  (forall or, reaches kp or -> forbidden or) -> avoids forbidden w acts ->
  exists o', nth_error (w_objs (history w acts)) x = Some o' /\ same_obj o o' /\
    forall l, l < length (w_heap w) -> kd l = kp -> nth_error (w_heap (history w acts)) l = nth_error (w_heap w) l.
Proof.
  induction acts as [|a acts IH]; intros forbidden kp kd w x o G Ho Hr HA; [exists o; repeat split; auto|].
  destruct HA as [HA1 HA2]. destruct (act_good kd w a G) as (kd' & G' & HK). destruct (act_obj w a x o Ho) as (o1 & Ho1 & S1).
  destruct (IH forbidden kp kd' (act w a) x o1 G' Ho1 Hr HA2) as (o2 & Ho2 & S2 & HC). exists o2. split; [exact Ho2|]. split.
  - destruct S1 as (A & B & C), S2 as (A' & B' & C'). repeat split; try congruence. intros k e He. apply C', C, He.
  - intros l Hl Hkd. change (history w (a :: acts)) with (history (act w a) acts). rewrite HC.
    + apply act_cell with kd; auto. intros or Hor Hre. apply (HA1 or Hor). apply Hr. rewrite <- Hkd. exact Hre.
    + pose proof (act_heap_grows w a). lia.
    + rewrite HK by exact Hl. exact Hkd.
Qed.

Definition reachable (w : world) : Prop := exists p names given acts, w = history (build p names given) acts.
Lemma reachable_good w : reachable w -> exists kd, good kd w.
Proof.
  intros (p & names & given & acts & ->). assert (H : forall acts w kd, good kd w -> exists kd', good kd' (history w acts)).
  { clear. induction acts as [|a acts IH]; intros w kd G; [exists kd; exact G|]. destruct (act_good kd w a G) as (kd' & G' & _). exact (IH _ _ G'). }
  eapply H. apply build_good.
Qed.

Lemma matrix_kept w acts x m : reachable w -> avoids a_row w acts -> matrix_of w x = Some m -> matrix_of (history w acts) x = Some m.
Proof.
  intros R HA Hm. destruct (reachable_good w R) as (kd & G). unfold matrix_of in *. destruct (nth_error (w_objs w) x) as [o|] eqn:Ho; [|discriminate].
  destruct (history_keeps acts a_row KP kd w x o G Ho) as (o' & Ho' & (Ep & _) & HC); [intros or; unfold reaches, a_row; destruct or; (discriminate || reflexivity)|exact HA|].
  rewrite Ho'. cbn [option_map] in *. inversion Hm; subst. unfold get_mat. rewrite Ep. destruct (g_obj kd w G o (nth_error_In _ _ Ho)) as (A & B & _). rewrite HC by assumption. reflexivity.
Qed.
Lemma names_kept w acts x l : reachable w -> avoids a_name_list w acts -> names_of w x = Some l -> names_of (history w acts) x = Some l.
Proof.
  intros R HA Hm. destruct (reachable_good w R) as (kd & G). unfold names_of in *. destruct (nth_error (w_objs w) x) as [o|] eqn:Ho; [|discriminate].
  destruct (history_keeps acts a_name_list KS kd w x o G Ho) as (o' & Ho' & (_ & Es & _) & HC); [intros or; unfold reaches, a_name_list; destruct or; (discriminate || auto)|exact HA|].
  rewrite Ho'. cbn [option_map] in *. inversion Hm; subst. unfold get_str. rewrite Es. destruct (g_obj kd w G o (nth_error_In _ _ Ho)) as (_ & _ & A & B & _). rewrite HC by assumption. reflexivity.
Qed.
Lemma cached_kept w acts x k c : reachable w -> avoids a_cached w acts -> cached_of w x k = Some c -> cached_of (history w acts) x k = Some c.
Proof.
  intros R HA Hm. destruct (reachable_good w R) as (kd & G). unfold cached_of in *. destruct (nth_error (w_objs w) x) as [o|] eqn:Ho; [|discriminate].
  destruct (history_keeps acts a_cached KC kd w x o G Ho) as (o' & Ho' & (_ & _ & Ec) & HC).
  { intros or; unfold reaches, a_cached; destruct or; try discriminate. intros _. exists k0. reflexivity. }
  { exact HA. }
  rewrite Ho'. destruct (find _ (o_cache o)) as [[k' l]|] eqn:EF; [|discriminate]. rewrite (Ec k _ EF). pose proof (find_some _ _ EF) as [HI _].
  destruct (g_obj kd w G o (nth_error_In _ _ Ho)) as (_ & _ & _ & _ & F). destruct (F _ HI) as [A B]. cbn in A, B. rewrite HC by assumption. exact Hm.
Qed.
End Sharing.

(** Counterexamples. *)
Section Bad.
Variable cached_value computed_value : nat -> mat -> list string -> cell.
Variable derived : nat -> mat -> mat.
Notation history := (history cached_value computed_value derived).

Lemma row_view_changes_matrix p names given i r : i < length p -> nth_error p i <> Some r ->
  let w := build p names given in
  let after := history w [ARow 0 i; AWriteRow 0 r] in
  matrix_of w 0 = Some p /\ exists q, matrix_of after 0 = Some q /\ nth_error q i = Some r /\ q <> p.
Proof.
  intros Hi Hne w after. split; [reflexivity|]. exists (put i r p). subst after w. split; [destruct given; reflexivity|]. split; [apply put_eq; exact Hi|].
  intros E. apply Hne. rewrite <- E at 1. apply put_eq. exact Hi.
Qed.
Lemma states_list_changes_names p names new : names_of (history (build p names false) [AStates 0; AWriteStr 0 new]) 0 = Some new.
Proof. reflexivity. Qed.
Lemma argument_list_changes_names p names new : names_of (history (build p names true) [AWriteStr 0 new]) 0 = Some new.
Proof. reflexivity. Qed.
Lemma derived_chain_changes_names p names k new : names_of (history (build p names false) [ADerive 0 k; AStates 1; AWriteStr 0 new]) 0 = Some new.
Proof. reflexivity. Qed.
Lemma cached_array_changes p names k m new : cached_value k p names = CMat m ->
  cached_of (history (build p names false) [ACached 0 k]) 0 k = Some (CMat m)
  /\ cached_of (history (build p names false) [ACached 0 k; AWriteMat 0 new]) 0 k = Some (CMat new).
Proof.
  intros E. assert (E1 : cached_of (history (build p names false) [ACached 0 k]) 0 k = Some (cached_value k p names)) by (cbn; rewrite Nat.eqb_refl; reflexivity).
  split; [rewrite E1, E; reflexivity|]. unfold M_Object.history. cbn [fold_left]. cbn. rewrite E. cbn. rewrite Nat.eqb_refl. reflexivity.
Qed.
End Bad.
