(** QcX: arithmetic on exact rationals (Qc), tactics and finite sums.
    (Library file.)  Qc replaces Python floats: rounding is not modelled. *)
From Coq Require Export QArith Qcanon Lqa.
From Verif Require Export Base.
Close Scope Q_scope.
Close Scope Qc_scope.
Open Scope nat_scope.

Global Arguments Q2Qc : simpl never.
Global Arguments Qcplus : simpl never.
Global Arguments Qcmult : simpl never.
Global Arguments Qcminus : simpl never.
Global Arguments Qcopp : simpl never.
Global Arguments Qcinv : simpl never.
Global Arguments Qcdiv : simpl never.

Notation "0q" := (Q2Qc 0) (at level 0).
Notation "1q" := (Q2Qc 1) (at level 0).

Lemma this_plus a b : (this (a + b)%Qc == this a + this b)%Q.
Proof. exact (Qred_correct _). Qed.
Lemma this_mult a b : (this (a * b)%Qc == this a * this b)%Q.
Proof. exact (Qred_correct _). Qed.
Lemma this_opp a : (this (- a)%Qc == - this a)%Q.
Proof. exact (Qred_correct _). Qed.
Lemma this_minus a b : (this (a - b)%Qc == this a - this b)%Q.
Proof. unfold Qcminus; rewrite this_plus, this_opp; reflexivity. Qed.
Lemma this_inv a : (this (/ a)%Qc == / this a)%Q.
Proof. exact (Qred_correct _). Qed.
Lemma this_Q2Qc q : (this (Q2Qc q) == q)%Q.
Proof. exact (Qred_correct _). Qed.
Lemma Qc_eq_this a b : a = b <-> (this a == this b)%Q.
Proof. split; [intros ->; reflexivity|apply Qc_is_canon]. Qed.

(** [qpush] moves a Qc problem to Q; [qclra]/[qcnra] then close it. *)
Ltac qpush :=
  repeat match goal with
  | H : @eq Qc ?a ?b |- _ => apply (proj1 (Qc_eq_this a b)) in H
  | H : ~ (@eq Qc ?a ?b) |- _ => rewrite (Qc_eq_this a b) in H
  end;
  unfold Qcle, Qclt, Qcdiv in *;
  try match goal with |- @eq Qc ?a ?b => apply (proj2 (Qc_eq_this a b)) end;
  repeat match goal with
  | H : context [this (?a + ?b)%Qc] |- _ => rewrite (this_plus a b) in H
  | H : context [this (?a * ?b)%Qc] |- _ => rewrite (this_mult a b) in H
  | H : context [this (?a - ?b)%Qc] |- _ => rewrite (this_minus a b) in H
  | H : context [this (- ?a)%Qc] |- _ => rewrite (this_opp a) in H
  | H : context [this (Q2Qc ?a)] |- _ => rewrite (this_Q2Qc a) in H
  | |- context [this (?a + ?b)%Qc] => rewrite (this_plus a b)
  | |- context [this (?a * ?b)%Qc] => rewrite (this_mult a b)
  | |- context [this (?a - ?b)%Qc] => rewrite (this_minus a b)
  | |- context [this (- ?a)%Qc] => rewrite (this_opp a)
  | |- context [this (Q2Qc ?a)] => rewrite (this_Q2Qc a)
  end.

Ltac qclra := qpush; lra.
Ltac qcnra := qpush; nra.

Section Tests.
Let t1 (a b c : Qc) : (a <= b -> 0 < c -> a - c < b + c)%Qc.
Proof. intros; qclra. Qed.
Let t2 (a b : Qc) : (a + 0 = b -> b * (1+1) = a + b)%Qc.
Proof. intros; qclra. Qed.
Let t3 (a b : Qc) : (a + 0 = b -> b * Q2Qc (2#1) = a + b)%Qc.
Proof. intros; qclra. Qed.
Let t4 (a b : Qc) : (0 <= a -> 0 <= b -> 0 <= a * b)%Qc.
Proof. intros; qcnra. Qed.
End Tests.

(** Boolean comparisons. *)
Definition Qcleb (a b : Qc) : bool := Qle_bool (this a) (this b).
Definition Qcltb (a b : Qc) : bool := negb (Qcleb b a).
Definition Qceqb (a b : Qc) : bool := Qeq_bool (this a) (this b).

Lemma Qcleb_le a b : Qcleb a b = true <-> (a <= b)%Qc.
Proof. unfold Qcleb, Qcle; apply Qle_bool_iff. Qed.
Lemma Qcleb_gt a b : Qcleb a b = false <-> (b < a)%Qc.
Proof.
  rewrite <- not_true_iff_false, Qcleb_le. split.
  - intros H; apply Qcnot_le_lt; exact H.
  - intros H; apply Qclt_not_le; exact H.
Qed.
Lemma Qcltb_lt a b : Qcltb a b = true <-> (a < b)%Qc.
Proof. unfold Qcltb; rewrite negb_true_iff; apply Qcleb_gt. Qed.
Lemma Qcltb_ge a b : Qcltb a b = false <-> (b <= a)%Qc.
Proof. unfold Qcltb; rewrite negb_false_iff; apply Qcleb_le. Qed.
Lemma Qceqb_eq a b : Qceqb a b = true <-> a = b.
Proof.
  unfold Qceqb; rewrite Qeq_bool_iff; split; [apply Qc_is_canon|intros ->; reflexivity].
Qed.
Lemma Qceqb_neq a b : Qceqb a b = false <-> a <> b.
Proof. rewrite <- not_true_iff_false, Qceqb_eq; reflexivity. Qed.
Lemma Qcleb_spec a b : BoolSpec (a <= b)%Qc (b < a)%Qc (Qcleb a b).
Proof.
  destruct (Qcleb a b) eqn:E; constructor; [apply Qcleb_le|apply Qcleb_gt]; exact E.
Qed.
Lemma Qcltb_spec a b : BoolSpec (a < b)%Qc (b <= a)%Qc (Qcltb a b).
Proof.
  destruct (Qcltb a b) eqn:E; constructor; [apply Qcltb_lt|apply Qcltb_ge]; exact E.
Qed.
Lemma Qceqb_spec a b : BoolSpec (a = b) (a <> b) (Qceqb a b).
Proof.
  destruct (Qceqb a b) eqn:E; constructor; [apply Qceqb_eq|apply Qceqb_neq]; exact E.
Qed.

Definition Qcabs (a : Qc) : Qc := if Qcleb 0 a then a else (- a)%Qc.
Definition Qcmin (a b : Qc) : Qc := if Qcleb a b then a else b.
Definition Qcmax (a b : Qc) : Qc := if Qcleb a b then b else a.

Lemma Qcabs_nonneg a : (0 <= Qcabs a)%Qc.
Proof. unfold Qcabs; destruct (Qcleb_spec 0 a); qclra. Qed.
Lemma Qcabs_le a b : (Qcabs a <= b)%Qc <-> (- b <= a /\ a <= b)%Qc.
Proof.
  unfold Qcabs; destruct (Qcleb_spec 0 a); split; intros H1;
    [split|destruct H1|split|destruct H1]; qclra.
Qed.
Lemma Qcabs_0 a : Qcabs a = 0q <-> a = 0q.
Proof. unfold Qcabs; destruct (Qcleb_spec 0 a); split; intros; qclra. Qed.
Lemma Qcabs_eq_nonneg a : (0 <= a)%Qc -> Qcabs a = a.
Proof. intros H; unfold Qcabs; destruct (Qcleb_spec 0 a); [reflexivity|]; qclra. Qed.

Lemma Qclt_irr a : (a < a)%Qc -> False.
Proof. intros H; qclra. Qed.
Lemma Qc_div_mul a b : b <> 0q -> (a / b * b)%Qc = a.
Proof. intros H; field; exact H. Qed.
Lemma Qc_mul_nonneg a b : (0 <= a -> 0 <= b -> 0 <= a * b)%Qc.
Proof. intros; qcnra. Qed.
Lemma Qc_mul_pos a b : (0 < a -> 0 < b -> 0 < a * b)%Qc.
Proof. intros; qcnra. Qed.
Lemma Qc_inv_pos a : (0 < a -> 0 < / a)%Qc.
Proof. intros H. unfold Qclt in *. rewrite this_inv. apply Qinv_lt_0_compat; exact H. Qed.
Lemma Qc_div_nonneg a b : (0 <= a -> 0 < b -> 0 <= a / b)%Qc.
Proof. intros; unfold Qcdiv; apply Qc_mul_nonneg; [assumption|apply Qclt_le_weak, Qc_inv_pos; assumption]. Qed.
Lemma Qc_div_pos a b : (0 < a -> 0 < b -> 0 < a / b)%Qc.
Proof. intros; unfold Qcdiv; apply Qc_mul_pos; [assumption|apply Qc_inv_pos; assumption]. Qed.
Lemma Qc_lt_neq a : (0 < a)%Qc -> a <> 0q.
Proof. intros H E; subst; exact (Qclt_irr _ H). Qed.
Lemma Qc_div_le_1 a b : (0 < b -> a <= b -> a / b <= 1)%Qc.
Proof.
  intros Hb H. assert (a / b * b = a)%Qc by (apply Qc_div_mul, Qc_lt_neq, Hb).
  destruct (Qcleb_spec (a / b) 1) as [|C]; [assumption|].
  revert H0 C; generalize (a / b)%Qc; intros; qcnra.
Qed.
Lemma Qc_mul_cancel_r a b c : c <> 0q -> (a * c = b * c)%Qc -> a = b.
Proof.
  intros Hc H. assert (E : (a * c / c = b * c / c)%Qc) by (rewrite H; reflexivity).
  rewrite !Qcdiv_mult_l in E by exact Hc. exact E.
Qed.
Lemma Qc_integral a b : (a * b = 0)%Qc -> a = 0q \/ b = 0q.
Proof. apply Qcmult_integral. Qed.

(** Finite sums  f 0 + ... + f (n-1). *)
Fixpoint sumn (n : nat) (f : nat -> Qc) : Qc :=
  match n with O => 0q | S k => (sumn k f + f k)%Qc end.

Lemma sumn_ext n f g : (forall i, i < n -> f i = g i) -> sumn n f = sumn n g.
Proof.
  induction n as [|n IH]; simpl; intros H; [reflexivity|].
  rewrite IH, H by (try (intros; apply H); lia). reflexivity.
Qed.
Lemma sumn_0 n f : (forall i, i < n -> f i = 0q) -> sumn n f = 0q.
Proof.
  induction n as [|n IH]; simpl; intros H; [reflexivity|].
  rewrite IH, H by (try (intros; apply H); lia). ring.
Qed.
Lemma sumn_plus n f g : sumn n (fun i => f i + g i)%Qc = (sumn n f + sumn n g)%Qc.
Proof. induction n as [|n IH]; simpl; [ring|]. rewrite IH; ring. Qed.
Lemma sumn_minus n f g : sumn n (fun i => f i - g i)%Qc = (sumn n f - sumn n g)%Qc.
Proof. induction n as [|n IH]; simpl; [ring|]. rewrite IH; ring. Qed.
Lemma sumn_mul_l n c f : sumn n (fun i => c * f i)%Qc = (c * sumn n f)%Qc.
Proof. induction n as [|n IH]; simpl; [ring|]. rewrite IH; ring. Qed.
Lemma sumn_mul_r n c f : sumn n (fun i => f i * c)%Qc = (sumn n f * c)%Qc.
Proof. induction n as [|n IH]; simpl; [ring|]. rewrite IH; ring. Qed.
Lemma sumn_div n c f : sumn n (fun i => f i / c)%Qc = (sumn n f / c)%Qc.
Proof. unfold Qcdiv; apply sumn_mul_r. Qed.
Lemma sumn_const n c : sumn n (fun _ => c) = (Q2Qc (inject_Z (Z.of_nat n)) * c)%Qc.
Proof.
  induction n as [|n IH]; simpl sumn.
  - change (Q2Qc (inject_Z (Z.of_nat 0))) with 0q. ring.
  - rewrite IH. rewrite Nat2Z.inj_succ. unfold Z.succ.
    qpush. rewrite inject_Z_plus. ring.
Qed.
Lemma sumn_swap n m (f : nat -> nat -> Qc) :
  sumn n (fun i => sumn m (fun j => f i j)) = sumn m (fun j => sumn n (fun i => f i j)).
Proof.
  induction n as [|n IH]; simpl.
  - symmetry; apply sumn_0; reflexivity.
  - rewrite IH, <- sumn_plus; reflexivity.
Qed.
Lemma sumn_nonneg n f : (forall i, i < n -> (0 <= f i)%Qc) -> (0 <= sumn n f)%Qc.
Proof.
  induction n as [|n IH]; simpl; intros H; [apply Qcle_refl|].
  assert (0 <= sumn n f)%Qc by (apply IH; intros; apply H; lia).
  assert (0 <= f n)%Qc by (apply H; lia). qclra.
Qed.
Lemma sumn_le n f g : (forall i, i < n -> (f i <= g i)%Qc) -> (sumn n f <= sumn n g)%Qc.
Proof.
  induction n as [|n IH]; simpl; intros H; [apply Qcle_refl|].
  assert (sumn n f <= sumn n g)%Qc by (apply IH; intros; apply H; lia).
  assert (f n <= g n)%Qc by (apply H; lia). qclra.
Qed.
Lemma sumn_lt n f g k : k < n -> (f k < g k)%Qc ->
  (forall i, i < n -> (f i <= g i)%Qc) -> (sumn n f < sumn n g)%Qc.
Proof.
  induction n as [|n IH]; intros Hk Hlt H; [lia|]. simpl.
  assert (Hn : (f n <= g n)%Qc) by (apply H; lia).
  destruct (Nat.eq_dec k n) as [->|Hne].
  - assert (sumn n f <= sumn n g)%Qc by (apply sumn_le; intros; apply H; lia). qclra.
  - assert (sumn n f < sumn n g)%Qc by (apply IH; [lia|exact Hlt|intros; apply H; lia]). qclra.
Qed.
Lemma sumn_pos n f k : k < n -> (0 < f k)%Qc -> (forall i, i < n -> (0 <= f i)%Qc) ->
  (0 < sumn n f)%Qc.
Proof.
  intros Hk Hp H. rewrite <- (sumn_0 n (fun _ => 0q)) by reflexivity.
  apply sumn_lt with (k := k); assumption.
Qed.
Lemma sumn_term_le n f k : k < n -> (forall i, i < n -> (0 <= f i)%Qc) -> (f k <= sumn n f)%Qc.
Proof.
  induction n as [|n IH]; intros Hk H; [lia|]. simpl.
  assert (0 <= f n)%Qc by (apply H; lia).
  destruct (Nat.eq_dec k n) as [->|Hne].
  - assert (0 <= sumn n f)%Qc by (apply sumn_nonneg; intros; apply H; lia). qclra.
  - assert (f k <= sumn n f)%Qc by (apply IH; [lia|intros; apply H; lia]). qclra.
Qed.
Lemma sumn_eq0_inv n f k : (forall i, i < n -> (0 <= f i)%Qc) -> sumn n f = 0q -> k < n -> f k = 0q.
Proof.
  intros H E Hk. assert (f k <= sumn n f)%Qc by (apply sumn_term_le; assumption).
  specialize (H k Hk). qclra.
Qed.
Lemma sumn_pos_inv n f : (0 < sumn n f)%Qc -> exists k, k < n /\ (0 < f k)%Qc.
Proof.
  induction n as [|n IH]; simpl; intros H.
  - destruct (Qclt_irr _ H).
  - destruct (Qcltb_spec 0 (f n)) as [Hp|Hp].
    + exists n; split; [lia|exact Hp].
    + destruct IH as (k & Hk & Hf); [qclra|]. exists k; split; [lia|exact Hf].
Qed.
Lemma sumn_single n f k : k < n -> (forall i, i < n -> i <> k -> f i = 0q) -> sumn n f = f k.
Proof.
  induction n as [|n IH]; intros Hk H; [lia|]. simpl.
  destruct (Nat.eq_dec k n) as [->|Hne].
  - rewrite sumn_0; [ring|]. intros; apply H; lia.
  - rewrite IH; [|lia|intros; apply H; lia]. rewrite (H n) by lia. ring.
Qed.
Lemma sumn_split n m f : sumn (n + m) f = (sumn n f + sumn m (fun i => f (n + i)%nat))%Qc.
Proof.
  induction m as [|m IH]; simpl.
  - rewrite Nat.add_0_r; ring.
  - rewrite Nat.add_succ_r; simpl. rewrite IH; ring.
Qed.
Lemma sumn_S_front n f : sumn (S n) f = (f 0%nat + sumn n (fun i => f (S i)))%Qc.
Proof.
  change (S n) with (1 + n). rewrite sumn_split. simpl. f_equal. ring.
Qed.
Lemma sumn_if_split n (b : nat -> bool) f :
  sumn n f = (sumn n (fun i => if b i then f i else 0q) + sumn n (fun i => if b i then 0q else f i))%Qc.
Proof.
  rewrite <- sumn_plus. apply sumn_ext; intros i _. destruct (b i); ring.
Qed.

(** Sums over lists. *)
Definition lsum (l : list Qc) : Qc := fold_right Qcplus 0q l.

Lemma lsum_app l1 l2 : lsum (l1 ++ l2) = (lsum l1 + lsum l2)%Qc.
Proof. induction l1 as [|a l1 IH]; simpl; [ring|]. rewrite IH; ring. Qed.
Lemma lsum_tab n f : lsum (tab n f) = sumn n f.
Proof.
  induction n as [|n IH]; [reflexivity|]. rewrite tab_S, lsum_app, IH. simpl. ring.
Qed.
Lemma lsum_nth l : lsum l = sumn (length l) (fun i => nth i l 0q).
Proof. rewrite <- lsum_tab, tab_of_nth; reflexivity. Qed.
Lemma lsum_nonneg l : (forall x, In x l -> (0 <= x)%Qc) -> (0 <= lsum l)%Qc.
Proof.
  induction l as [|a l IH]; simpl; intros H; [apply Qcle_refl|].
  assert (0 <= a)%Qc by (apply H; left; reflexivity).
  assert (0 <= lsum l)%Qc by (apply IH; intros; apply H; right; assumption). qclra.
Qed.
Lemma lsum_map_ext {A} (f g : A -> Qc) l : (forall x, In x l -> f x = g x) ->
  lsum (map f l) = lsum (map g l).
Proof. intros H; f_equal; apply map_ext_in; exact H. Qed.
Lemma lsum_map_plus {A} (f g : A -> Qc) l :
  lsum (map (fun x => f x + g x)%Qc l) = (lsum (map f l) + lsum (map g l))%Qc.
Proof. induction l as [|a l IH]; simpl; [ring|]. rewrite IH; ring. Qed.
Lemma lsum_map_mul_l {A} (f : A -> Qc) c l :
  lsum (map (fun x => c * f x)%Qc l) = (c * lsum (map f l))%Qc.
Proof. induction l as [|a l IH]; simpl; [ring|]. rewrite IH; ring. Qed.
Lemma lsum_map_mul_r {A} (f : A -> Qc) c l :
  lsum (map (fun x => f x * c)%Qc l) = (lsum (map f l) * c)%Qc.
Proof. induction l as [|a l IH]; simpl; [ring|]. rewrite IH; ring. Qed.
Lemma lsum_map_0 {A} (f : A -> Qc) l : (forall x, In x l -> f x = 0q) -> lsum (map f l) = 0q.
Proof.
  induction l as [|a l IH]; simpl; intros H; [reflexivity|].
  rewrite H by (left; reflexivity). rewrite IH by (intros; apply H; right; assumption). ring.
Qed.
Lemma lsum_flat_map {A B} (g : A -> list B) (f : B -> Qc) l :
  lsum (map f (flat_map g l)) = lsum (map (fun x => lsum (map f (g x))) l).
Proof.
  induction l as [|a l IH]; simpl; [reflexivity|]. rewrite map_app, lsum_app, IH; reflexivity.
Qed.
Lemma lsum_map_sumn {A} (f : A -> nat -> Qc) n l :
  lsum (map (fun x => sumn n (f x)) l) = sumn n (fun i => lsum (map (fun x => f x i) l)).
Proof.
  induction l as [|a l IH]; simpl.
  - symmetry; apply sumn_0; reflexivity.
  - rewrite IH, <- sumn_plus; reflexivity.
Qed.

(** A sum over a duplicate-free list of indices below n is the sum of the indicator. *)
Lemma lsum_map_indicator n (f : nat -> Qc) l :
  NoDup l -> (forall x, In x l -> x < n) ->
  lsum (map f l) = sumn n (fun i => if memn i l then f i else 0q).
Proof.
  induction l as [|a l IH]; intros Hd Hl; simpl.
  - symmetry; apply sumn_0; reflexivity.
  - inversion Hd as [|? ? Hna Hd']; subst. rewrite IH by (auto; intros; apply Hl; right; assumption).
    assert (Ha : a < n) by (apply Hl; left; reflexivity).
    assert (E : f a = sumn n (fun i => if Nat.eqb i a then f i else 0q)).
    { rewrite (sumn_single n _ a Ha); [rewrite Nat.eqb_refl; reflexivity|].
      intros i _ Hi; apply Nat.eqb_neq in Hi; rewrite Hi; reflexivity. }
    rewrite E, <- sumn_plus. apply sumn_ext; intros i Hi. unfold memn; simpl.
    destruct (Nat.eqb_spec i a) as [->|Hne]; simpl.
    + replace (existsb (Nat.eqb a) l) with false; [ring|].
      symmetry; apply memn_false; exact Hna.
    + destruct (existsb (Nat.eqb i) l); ring.
Qed.

(** Maximum principle helper: a finite family attains its maximum. *)
Lemma argmax_exists n (f : nat -> Qc) : 0 < n ->
  exists k, k < n /\ (forall i, i < n -> (f i <= f k)%Qc).
Proof.
  induction n as [|n IH]; intros H; [lia|].
  destruct n as [|n].
  - exists 0; split; [lia|]. intros i Hi; replace i with 0 by lia; apply Qcle_refl.
  - destruct IH as (k & Hk & Hm); [lia|].
    destruct (Qcleb_spec (f (S n)) (f k)) as [Hle|Hgt].
    + exists k; split; [lia|]. intros i Hi. destruct (Nat.eq_dec i (S n)) as [->|]; [exact Hle|apply Hm; lia].
    + exists (S n); split; [lia|]. intros i Hi. destruct (Nat.eq_dec i (S n)) as [->|]; [apply Qcle_refl|].
      apply Qcle_trans with (f k); [apply Hm; lia|apply Qclt_le_weak; exact Hgt].
Qed.

(** Natural numbers as rationals. *)
Definition Qcn (n : nat) : Qc := Q2Qc (inject_Z (Z.of_nat n)).
Lemma Qcn_0 : Qcn 0 = 0q. Proof. reflexivity. Qed.
Lemma Qcn_S n : Qcn (S n) = (Qcn n + 1)%Qc.
Proof.
  unfold Qcn. rewrite Nat2Z.inj_succ. unfold Z.succ. qpush. rewrite inject_Z_plus. ring.
Qed.
Lemma Qcn_add a b : Qcn (a + b) = (Qcn a + Qcn b)%Qc.
Proof. unfold Qcn. rewrite Nat2Z.inj_add. qpush. rewrite inject_Z_plus. ring. Qed.
Lemma Qcn_mul a b : Qcn (a * b) = (Qcn a * Qcn b)%Qc.
Proof. unfold Qcn. rewrite Nat2Z.inj_mul. qpush. rewrite inject_Z_mult. ring. Qed.
Lemma sumn_const_n n c : sumn n (fun _ => c) = (Qcn n * c)%Qc.
Proof. apply sumn_const. Qed.
Lemma Qcn_1 : Qcn 1 = 1q. Proof. reflexivity. Qed.
Global Opaque Qcn.
Lemma Qcn_nonneg n : (0 <= Qcn n)%Qc.
Proof.
  induction n as [|n IH]; [apply Qcle_refl|]. rewrite Qcn_S. qclra.
Qed.
Lemma Qcn_pos n : 0 < n -> (0 < Qcn n)%Qc.
Proof.
  destruct n as [|n]; [lia|]. intros _. rewrite Qcn_S. pose proof (Qcn_nonneg n). qclra.
Qed.
Lemma Qcn_le a b : a <= b -> (Qcn a <= Qcn b)%Qc.
Proof.
  intros H; replace (Qcn b) with (Qcn a + Qcn (b - a))%Qc by (rewrite <- Qcn_add; f_equal; lia).
  pose proof (Qcn_nonneg (b - a)). qclra.
Qed.
Lemma Qcn_sub a b : b <= a -> Qcn (a - b) = (Qcn a - Qcn b)%Qc.
Proof. intros H. replace (Qcn a) with (Qcn b + Qcn (a - b))%Qc by (rewrite <- Qcn_add; f_equal; lia). ring. Qed.
Lemma Qcn_lt a b : a < b -> (Qcn a < Qcn b)%Qc.
Proof. intros H. apply Qcn_le in H. rewrite Qcn_S in H. qclra. Qed.
Lemma Qcn_inj a b : Qcn a = Qcn b -> a = b.
Proof.
  intros H. destruct (Nat.lt_trichotomy a b) as [L|[E|L]]; [|exact E|];
    apply Qcn_lt in L; rewrite H in L; destruct (Qclt_irr _ L).
Qed.

Lemma Qc_div_self a : a <> 0q -> (a / a)%Qc = 1q.
Proof. intros; field; assumption. Qed.
