(** L_Message: proofs about messages. *)
From Coq Require Import List String Ascii Bool Lia.
From Verif Require Import M_Message S_Message.
Import ListNotations.
Local Open Scope string_scope.

Lemma name_not c d : name_char c -> (nat_of_ascii d < 48)%nat \/ nat_of_ascii d = 61 -> c <> d.
Proof. intros H D ->. unfold name_char in H. lia. Qed.
Lemma name_not_blank c : name_char c -> blank c = false.
Proof.
  unfold name_char, blank. intros H. rewrite !andb_false_intro2, ?orb_false_iff; [auto| |]; apply PeanoNat.Nat.leb_gt; lia.
Qed.
Lemma before_name a nm r : name_chars nm -> (nat_of_ascii a < 48)%nat \/ nat_of_ascii a = 61 -> before a (nm ++ r) = nm ++ before a r.
Proof.
  intros H A. induction nm as [|c nm IH]; [reflexivity|]. destruct H as [C H]. cbn [append before].
  rewrite (proj2 (Ascii.eqb_neq c a)) by now apply name_not. now rewrite IH.
Qed.
Lemma before_spaces a n r : a <> " "%char -> before a (spaces n ++ r) = spaces n ++ before a r.
Proof.
  intros A. induction n as [|n IH]; [reflexivity|]. cbn [spaces append before].
  rewrite (proj2 (Ascii.eqb_neq " "%char a)) by auto. now rewrite IH.
Qed.
Lemma lstrip_spaces n r : lstrip (spaces n ++ r) = lstrip r.
Proof. induction n as [|n IH]; [reflexivity|]. cbn [spaces append lstrip]. exact IH. Qed.
Lemma lstrip_name c nm r : name_char c -> lstrip (String c nm ++ r) = String c nm ++ r.
Proof. intros C. cbn [append lstrip]. now rewrite name_not_blank. Qed.
Lemma rstrip_name nm r : name_chars nm -> nm <> "" -> rstrip (nm ++ r) = nm ++ rstrip r.
Proof.
  intros H N. induction nm as [|c nm IH]; [congruence|]. destruct H as [C H]. cbn [append rstrip].
  destruct nm as [|d nm].
  - cbn [append]. destruct (rstrip r); [|reflexivity]. now rewrite name_not_blank.
  - rewrite IH by (auto; discriminate). reflexivity.
Qed.
Lemma app_nil s : s ++ "" = s.
Proof. induction s as [|c s IH]; [reflexivity|]. cbn. now rewrite IH. Qed.
Lemma app_assoc' a b c : (a ++ b) ++ c = a ++ (b ++ c).
Proof. induction a as [|x a IH]; [reflexivity|]. cbn. now rewrite IH. Qed.

Lemma argument_assigned n nm rest : name_chars nm -> nm <> "" -> argument [spaces n ++ nm ++ " = " ++ rest] = nm.
Proof.
  intros H N. unfold argument. cbn [concat]. 
  rewrite before_spaces by discriminate. rewrite before_name by (auto; right; reflexivity).
  change (before "=" (" = " ++ rest)) with " ". unfold strip. rewrite lstrip_spaces.
  destruct nm as [|c nm]; [congruence|]. rewrite lstrip_name by apply H. rewrite rstrip_name by assumption.
  change (rstrip " ") with "". rewrite before_name by (auto; left; cbn; lia). cbn [before]. apply app_nil.
Qed.
Lemma rstrip_comma r : exists t, rstrip ("," ++ r) = "," ++ t.
Proof. cbn [append rstrip]. destruct (rstrip r) as [|c t]; [exists ""|exists (String c t)]; reflexivity. Qed.
Lemma before_comma r : before "=" ("," ++ r) = "," ++ before "=" r.
Proof. reflexivity. Qed.
Lemma argument_pair n nm rest : name_chars nm -> nm <> "" -> argument [spaces n ++ nm ++ "," ++ rest] = nm.
Proof.
  intros H N. unfold argument. cbn [concat]. 
  rewrite before_spaces by discriminate. rewrite before_name by (auto; right; reflexivity).
  rewrite before_comma. unfold strip. rewrite lstrip_spaces.
  destruct nm as [|c nm]; [congruence|]. rewrite lstrip_name by apply H. rewrite rstrip_name by assumption.
  destruct (rstrip_comma (before "=" rest)) as [t ->]. rewrite before_name by (auto; left; cbn; lia).
  change (before "," ("," ++ t)) with "". apply app_nil.
Qed.

(** ** replacing *)
Lemma prefix_free p : free "@" p -> forall c q, p = String c q -> forall t, prefix "@arg@" (p ++ t) = false.
Proof. intros H c q -> t. destruct H as [C _]. cbn [append prefix]. destruct (ascii_dec "@" c); [congruence|reflexivity]. Qed.
Lemma replace_free rep p t : free "@" p -> replace_go "@arg@" rep (p ++ t) 0 = p ++ replace_go "@arg@" rep t 0.
Proof.
  induction p as [|c p IH]; [reflexivity|]. intros H.
  pose proof (prefix_free (String c p) H c p eq_refl t) as Q. destruct H as [C H].
  change (String c p ++ t) with (String c (p ++ t)) in *. cbn [replace_go]. rewrite Q. cbn [append]. now rewrite IH.
Qed.
Lemma prefix_self p t : prefix p (p ++ t) = true.
Proof. induction p as [|c p IH]; [destruct t; reflexivity|]. cbn [append prefix]. destruct (ascii_dec c c); [exact IH|congruence]. Qed.
Lemma replace_hole rep t : replace_go "@arg@" rep ("@arg@" ++ t) 0 = rep ++ replace_go "@arg@" rep t 0.
Proof.
  pose proof (prefix_self "@arg@" t) as Q. change ("@arg@" ++ t) with (String "@" ("arg@" ++ t)) in *.
  cbn [replace_go]. rewrite Q. reflexivity.
Qed.
Theorem replace_filled name pieces : Forall (free "@") pieces -> replace "@arg@" name (filled "@arg@" pieces) = filled name pieces.
Proof.
  unfold replace. induction pieces as [|p r IH]; intros H; [reflexivity|]. inversion H as [|? ? P R]; subst.
  destruct r as [|q r].
  - cbn [filled]. rewrite <- (app_nil p) at 1. rewrite replace_free by exact P. cbn [replace_go]. apply app_nil.
  - change (filled "@arg@" (p :: q :: r)) with (p ++ ("@arg@" ++ filled "@arg@" (q :: r))).
    change (filled name (p :: q :: r)) with (p ++ name ++ filled name (q :: r)).
    rewrite replace_free by exact P. rewrite replace_hole, IH by exact R. reflexivity.
Qed.

(** ** the statements *)
Definition name_charb (c : ascii) : bool :=
  let k := nat_of_ascii c in
  (Nat.leb 48 k && Nat.leb k 57) || (Nat.leb 65 k && Nat.leb k 90) || Nat.eqb k 95 || (Nat.leb 97 k && Nat.leb k 122).
Fixpoint name_charsb (s : string) : bool := match s with EmptyString => true | String c r => name_charb c && name_charsb r end.
Lemma name_charb_ok c : name_charb c = true -> name_char c.
Proof.
  unfold name_charb, name_char. rewrite !orb_true_iff, !andb_true_iff, !PeanoNat.Nat.leb_le, PeanoNat.Nat.eqb_eq. lia.
Qed.
Lemma name_charsb_ok s : name_charsb s = true -> name_chars s.
Proof.
  induction s as [|c s IH]; [intros; exact I|]. cbn. rewrite andb_true_iff. intros [A B]. split; [now apply name_charb_ok|auto].
Qed.
Lemma prefix_split p : forall s, prefix p s = true -> exists t, s = p ++ t.
Proof.
  induction p as [|c p IH]; intros s H; [now exists s|]. destruct s as [|d s]; [discriminate|]. cbn [prefix] in H.
  destruct (ascii_dec c d) as [->|]; [|discriminate]. destruct (IH s H) as [t ->]. now exists t.
Qed.
Definition good (st : string * string) : bool :=
  name_charsb (fst st) && negb (String.eqb (fst st) "") &&
  (prefix (fst st ++ " = ") (snd st) || prefix (fst st ++ ",") (snd st)).
Lemma statements_good : forallb good statements = true.
Proof. vm_compute. reflexivity. Qed.

Theorem statement_named nm s n tl : In (nm, s) statements -> argument [spaces n ++ s ++ tl] = nm.
Proof.
  intros H. pose proof (proj1 (forallb_forall _ _) statements_good _ H) as G. unfold good in G. cbn [fst snd] in G.
  rewrite !andb_true_iff, orb_true_iff, negb_true_iff in G. destruct G as [[A B] C].
  apply name_charsb_ok in A. apply String.eqb_neq in B. destruct C as [C|C]; apply prefix_split in C; destruct C as [t ->].
  - rewrite !app_assoc'. now apply argument_assigned.
  - rewrite !app_assoc'. now apply argument_pair.
Qed.
Theorem statement_message nm s n tl pieces : In (nm, s) statements -> Forall (free "@") pieces ->
  create_validation_error (filled "@arg@" pieces) (Some [spaces n ++ s ++ tl]) = RValidation (filled nm pieces).
Proof. intros H P. unfold create_validation_error. rewrite statement_named with (1 := H). now rewrite replace_filled. Qed.
Theorem assigned_message nm n rest pieces : name_chars nm -> nm <> "" -> Forall (free "@") pieces ->
  create_validation_error (filled "@arg@" pieces) (Some [spaces n ++ nm ++ " = " ++ rest]) = RValidation (filled nm pieces).
Proof. intros H N P. unfold create_validation_error. rewrite argument_assigned by assumption. now rewrite replace_filled. Qed.

(** ** labels that look like a hole: MarkovChain(p, ['@arg@', 'b']).is_absorbing_state('c') *)
Definition odd_pieces : list string :=
  ["The """; """ parameter, when specified as a string, must match one of the following strings: @arg@, b."].
Definition odd_line : string := spaces 12 ++ "state = _validate_label(state, self.__states)" ++ newline.
Theorem label_swallowed :
  create_validation_error (filled "@arg@" odd_pieces) (Some [odd_line]) =
    RValidation (filled "state" ["The """; """ parameter, when specified as a string, must match one of the following strings: state, b."]) /\
  create_validation_error (filled "@arg@" odd_pieces) (Some [odd_line]) <> RValidation (filled "state" odd_pieces).
Proof. split; [vm_compute; reflexivity|]. intros H. vm_compute in H. discriminate H. Qed.
