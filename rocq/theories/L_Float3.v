(** L_Float3: powers of a matrix in doubles. *)
From Coq Require Import Reals Lra Lia List ZArith Permutation.
From Flocq Require Import Core.
From Verif Require Import Fl M_Float S_Float L_Float1 L_Float2.
Import ListNotations.
Local Open Scope R_scope.

(** ** products *)
Definition nnm (n : nat) (a : fmat) : Prop := forall i j, (i < n)%nat -> (j < n)%nat -> 0 <= a i j.

Lemma pairs_nnp n (a b : fmat) i j : nnm n a -> nnm n b -> (i < n)%nat -> (j < n)%nat ->
  forall x, In x (map (fun l => (a i l, b l j)) (seq 0 n)) -> nnp x.
Proof. intros A B I J x H. apply in_map_iff in H. destruct H as (l & <- & H). apply in_seq in H. split; simpl; [apply A|apply B]; lia. Qed.
Lemma pairs_prods n (a b : fmat) i j : rsum (prods (map (fun l => (a i l, b l j)) (seq 0 n))) = rsumn n (fun l => a i l * b l j).
Proof. unfold prods, rsumn. now rewrite map_map. Qed.
Lemma pairs_length n (a b : fmat) i j : length (map (fun l => (a i l, b l j)) (seq 0 n)) = n.
Proof. now rewrite map_length, seq_length. Qed.

Lemma mul_nonneg dt n a b : dotting dt -> nnm n a -> nnm n b -> nnm n (f_mul dt n a b).
Proof. intros D A B i j I J. apply (fdot_nonneg _ _ (D _)). now apply pairs_nnp. Qed.
Lemma mul_entry dt n a b i j : dotting dt -> nnm n a -> nnm n b -> (i < n)%nat -> (j < n)%nat ->
  lo n * rsumn n (fun l => a i l * b l j) - INR n * tiny <= f_mul dt n a b i j <= hi n * (rsumn n (fun l => a i l * b l j) + INR n * tiny).
Proof.
  intros D A B I J. pose proof (fdot_bounds _ _ (D (map (fun l => (a i l, b l j)) (seq 0 n)))) as H.
  rewrite pairs_length, pairs_prods in H. apply H. now apply pairs_nnp.
Qed.
Lemma mul_zero dt n a b i j : dotting dt -> nnm n a -> nnm n b -> (i < n)%nat -> (j < n)%nat ->
  rsumn n (fun l => a i l * b l j) < tiny -> f_mul dt n a b i j = 0.
Proof. intros D A B I J T. apply (fdot_zero _ _ (D _)); [now apply pairs_nnp|]. now rewrite pairs_prods. Qed.
Lemma mul_ge dt n a b i j l : dotting dt -> nnm n a -> nnm n b -> (i < n)%nat -> (j < n)%nat -> (l < n)%nat ->
  rnd (a i l * b l j) <= f_mul dt n a b i j.
Proof.
  intros D A B I J L. apply (fdot_ge _ _ _ _ (D _)); [now apply pairs_nnp|].
  apply in_map_iff. exists l. split; auto. apply in_seq; lia.
Qed.

Lemma exact_rows n (a b : fmat) i :
  rsumn n (fun j => rsumn n (fun l => a i l * b l j)) = rsumn n (fun l => a i l * rsumn n (b l)).
Proof. rewrite rsumn_swap. apply rsumn_ext. intros l _. apply rsumn_scal. Qed.

Lemma mul_row_up dt n a b i x y : dotting dt -> nnm n a -> nnm n b -> (i < n)%nat ->
  rsumn n (a i) <= x -> 0 <= y -> (forall l, (l < n)%nat -> rsumn n (b l) <= y) ->
  rsumn n (f_mul dt n a b i) <= hi n * (x * y + INR n * (INR n * tiny)).
Proof.
  intros D A B I X Y0 Y.
  eapply Rle_trans; [apply (rsumn_le n _ (fun j => hi n * (rsumn n (fun l => a i l * b l j) + INR n * tiny))); intros j J; now apply mul_entry|].
  rewrite rsumn_scal, rsumn_add, rsumn_const, exact_rows. apply Rmult_le_compat_l. { pose proof (hi_pos n); lra. }
  apply Rplus_le_compat_r. eapply Rle_trans; [apply (rsumn_le n _ (fun l => y * a i l)); intros l L; rewrite (Rmult_comm y); apply Rmult_le_compat_l; auto|].
  rewrite rsumn_scal, Rmult_comm. now apply Rmult_le_compat_r.
Qed.
Lemma mul_row_lo dt n a b i x y : dotting dt -> nnm n a -> nnm n b -> (i < n)%nat ->
  x <= rsumn n (a i) -> 0 <= y -> (forall l, (l < n)%nat -> y <= rsumn n (b l)) ->
  lo n * (x * y) - INR n * (INR n * tiny) <= rsumn n (f_mul dt n a b i).
Proof.
  intros D A B I X Y0 Y.
  eapply Rle_trans; [|apply (rsumn_le n (fun j => lo n * rsumn n (fun l => a i l * b l j) + - (INR n * tiny))); intros j J; pose proof (mul_entry dt n a b i j D A B I J); lra].
  rewrite rsumn_add, rsumn_const, rsumn_scal, exact_rows.
  assert (x * y <= rsumn n (fun l => a i l * rsumn n (b l))).
  { eapply Rle_trans; [apply Rmult_le_compat_r; [exact Y0|exact X]|]. rewrite Rmult_comm, <- rsumn_scal. apply rsumn_le.
    intros l L. rewrite Rmult_comm. apply Rmult_le_compat_l; auto. }
  pose proof (lo_pos n). assert (lo n * (x * y) <= lo n * rsumn n (fun l => a i l * rsumn n (b l))) by (apply Rmult_le_compat_l; lra). lra.
Qed.

(** ** powers: products grouped in some way *)
Inductive pw (dt : list (R * R) -> R) (n : nat) (p : fmat) : nat -> fmat -> Prop :=
| pw_1 : pw dt n p 1 p
| pw_mul j l a b : pw dt n p j a -> pw dt n p l b -> pw dt n p (j + l) (f_mul dt n a b).

Lemma binpow_pw dt n p k : forall z j r, pw dt n p j z ->
  match r with
  | None => pw dt n p (Pos.to_nat k * j) (f_binpow dt n z r k)
  | Some m => forall a, pw dt n p a m -> pw dt n p (a + Pos.to_nat k * j) (f_binpow dt n z r k)
  end.
Proof.
  induction k as [k IH|k IH|]; intros z j r Z.
  - assert (Z2 : pw dt n p (j + j) (f_mul dt n z z)) by (constructor; auto).
    cbn [f_binpow]. destruct r as [m|].
    + intros a A. pose proof (IH _ _ (Some (f_mul dt n m z)) Z2 (a + j)%nat (pw_mul _ _ _ _ _ _ _ A Z)) as H.
      replace (a + Pos.to_nat k~1 * j)%nat with (a + j + Pos.to_nat k * (j + j))%nat by lia. exact H.
    + pose proof (IH _ _ (Some z) Z2 j Z) as H.
      replace (Pos.to_nat k~1 * j)%nat with (j + Pos.to_nat k * (j + j))%nat by lia. exact H.
  - assert (Z2 : pw dt n p (j + j) (f_mul dt n z z)) by (constructor; auto).
    cbn [f_binpow]. destruct r as [m|].
    + intros a A. pose proof (IH _ _ (Some m) Z2 a A) as H.
      replace (a + Pos.to_nat k~0 * j)%nat with (a + Pos.to_nat k * (j + j))%nat by lia. exact H.
    + pose proof (IH _ _ None Z2) as H.
      replace (Pos.to_nat k~0 * j)%nat with (Pos.to_nat k * (j + j))%nat by lia. exact H.
  - cbn [f_binpow]. change (Pos.to_nat 1) with 1%nat. rewrite Nat.mul_1_l. destruct r as [m|]; [|exact Z].
    intros a A. now constructor.
Qed.
Lemma power_pw dt n p k : pw dt n p (Pos.to_nat k) (f_power dt n p k).
Proof.
  assert (G : pw dt n p (Pos.to_nat k) (f_binpow dt n p None k)).
  { rewrite <- (Nat.mul_1_r (Pos.to_nat k)). apply (binpow_pw dt n p k p 1 None). constructor. }
  unfold f_power. destruct k as [k|k|]; auto. destruct k as [k|k|]; auto.
  change (Pos.to_nat 3) with (1 + 1 + 1)%nat. repeat constructor.
Qed.

Lemma pw_nonneg dt n p k m : dotting dt -> nnm n p -> pw dt n p k m -> nnm n m.
Proof. intros D P. induction 1; auto using mul_nonneg. Qed.
Lemma pw_pos dt n p k m : pw dt n p k m -> (1 <= k)%nat.
Proof. induction 1; lia. Qed.

(** ** row sums of computed powers *)
Lemma absorb n : INR n <= 1000000000 -> INR n * (INR n * tiny) <= uu / 1000.
Proof.
  intros N. assert (tiny <= bpow radix2 (-150)) by (apply bpow_le; lia). pose proof tiny_pos.
  assert (E : bpow radix2 (-150) = / 1427247692705959881058285969449495136382746624) by reflexivity.
  pose proof (pos_INR n).
  assert (INR n * tiny <= 1000000000 * / 1427247692705959881058285969449495136382746624).
  { apply Rmult_le_compat; lra. }
  assert (INR n * (INR n * tiny) <= 1000000000 * (1000000000 * / 1427247692705959881058285969449495136382746624)).
  { apply Rmult_le_compat; try lra. apply Rmult_le_pos; lra. }
  rewrite uu_val. lra.
Qed.

Section Rows.
  Variables (dt : list (R * R) -> R) (n : nat) (p : fmat) (e : R).
  Hypotheses (D : dotting dt) (N : INR n <= 1000000000) (P : nnm n p) (E : 0 <= e <= 1).
  Hypothesis RS : forall i, (i < n)%nat -> Rabs (rsumn n (p i) - 1) <= e.
  Let c := hi (S n).
  Let d := lo (S n).
  Let q := 1 - (e + INR (S n) * uu).

  Lemma q_le : q <= (1 - e) * d.
  Proof.
    pose proof (lo_ge (S n)) as L. fold d in L. pose proof (lo_le1 (S n)) as L1. fold d in L1.
    pose proof (pos_INR (S n)). pose proof uu_pos. unfold q.
    assert (0 <= INR (S n) * uu) by (apply Rmult_le_pos; lra). nra.
  Qed.

  Lemma pw_rows k m : pw dt n p k m -> INR k * (e + INR (S n) * uu) <= / 2 ->
    forall i, (i < n)%nat -> q ^ k <= rsumn n (m i) * d /\ rsumn n (m i) * c <= ((1 + e) * c) ^ k.
  Proof.
    assert (NU : 0 <= INR (S n) * uu) by (apply Rmult_le_pos; [apply pos_INR|pose proof uu_pos; lra]).
    assert (SN : INR (S n) * uu <= / 1000).
    { rewrite S_INR, uu_val. pose proof (pos_INR n). lra. }
    pose proof (absorb n N) as AB. pose proof uu_pos as UP. pose proof uu_lt1 as UL.
    induction 1 as [|j l a b A IHa B IHb]; intros K i I.
    - specialize (RS i I). apply Rabs_le_inv in RS. simpl pow. rewrite !Rmult_1_r.
      pose proof (hi_pos (S n)). pose proof (lo_pos (S n)). fold c in H. fold d in H0. split.
      + eapply Rle_trans; [apply q_le|]. apply Rmult_le_compat_r; lra.
      + apply Rmult_le_compat_r; lra.
    - rewrite plus_INR in K. pose proof (pos_INR j) as J0. pose proof (pos_INR l) as L0.
      assert (T0 : 0 <= e + INR (S n) * uu) by lra.
      assert (Kj : INR j * (e + INR (S n) * uu) <= / 2) by nra.
      assert (Kl : INR l * (e + INR (S n) * uu) <= / 2) by nra.
      specialize (IHa Kj). specialize (IHb Kl).
      assert (Q1 : 0 <= e + INR (S n) * uu <= 1).
      { assert (1 <= INR j) by (apply (le_INR 1); now apply pw_pos in A). nra. }
      assert (Qj : / 2 <= q ^ j) by (pose proof (bernoulli _ j Q1); unfold q; lra).
      assert (Ql : / 2 <= q ^ l) by (pose proof (bernoulli _ l Q1); unfold q; lra).
      assert (d1 : 0 < d <= 1) by (split; [apply lo_pos|apply lo_le1]).
      assert (c1 : 1 <= c) by apply hi_ge1.
      pose proof (pw_nonneg _ _ _ _ _ D P A) as NA. pose proof (pw_nonneg _ _ _ _ _ D P B) as NB.
      (* lower bounds of the two factors *)
      set (x := q ^ j / d). set (y := q ^ l / d).
      assert (id : 1 <= / d) by (rewrite <- Rinv_1 at 1; apply Rinv_le_contravar; lra).
      assert (X2 : / 2 <= x) by (unfold x, Rdiv; nra). assert (Y2 : / 2 <= y) by (unfold y, Rdiv; nra).
      assert (XL : forall i, (i < n)%nat -> x <= rsumn n (a i)).
      { intros i0 I0. apply (Rmult_le_reg_r d); [lra|]. unfold x, Rdiv. rewrite Rmult_assoc, Rinv_l, Rmult_1_r by lra. now apply IHa. }
      assert (YL : forall i, (i < n)%nat -> y <= rsumn n (b i)).
      { intros i0 I0. apply (Rmult_le_reg_r d); [lra|]. unfold y, Rdiv. rewrite Rmult_assoc, Rinv_l, Rmult_1_r by lra. now apply IHb. }
      set (X := ((1 + e) * c) ^ j / c). set (Y := ((1 + e) * c) ^ l / c).
      assert (XU : forall i, (i < n)%nat -> rsumn n (a i) <= X).
      { intros i0 I0. apply (Rmult_le_reg_r c); [lra|]. unfold X, Rdiv. rewrite Rmult_assoc, Rinv_l, Rmult_1_r by lra. now apply IHa. }
      assert (YU : forall i, (i < n)%nat -> rsumn n (b i) <= Y).
      { intros i0 I0. apply (Rmult_le_reg_r c); [lra|]. unfold Y, Rdiv. rewrite Rmult_assoc, Rinv_l, Rmult_1_r by lra. now apply IHb. }
      assert (X3 : / 2 <= X) by (specialize (XL i I); specialize (XU i I); lra).
      assert (Y3 : / 2 <= Y) by (specialize (YL i I); specialize (YU i I); lra).
      pose proof (mul_row_lo dt n a b i x y D NA NB I (XL i I) ltac:(lra) YL) as LO.
      pose proof (mul_row_up dt n a b i X Y D NA NB I (XU i I) ltac:(lra) YU) as UPP.
      set (s := rsumn n (f_mul dt n a b i)) in *. set (w := INR n * (INR n * tiny)) in *.
      assert (lon : / 2 <= lo n).
      { pose proof (lo_ge n) as G. rewrite S_INR in SN. lra. }
      assert (xy : / 4 <= x * y) by nra. assert (XY : / 4 <= X * Y) by nra.
      assert (W1 : w <= uu * (X * Y)) by nra.
      assert (W2 : w <= uu * (lo n * (x * y))).
      { assert (/ 8 <= lo n * (x * y)) by nra. nra. }
      split.
      + rewrite pow_add. replace (q ^ j * q ^ l) with ((x * y) * d * d).
        2: { unfold x, y. field. lra. }
        apply Rmult_le_compat_r; [lra|]. unfold d. rewrite lo_S. lra.
      + rewrite pow_add. replace (((1 + e) * c) ^ j * ((1 + e) * c) ^ l) with ((X * Y) * c * c).
        2: { unfold X, Y. field. lra. }
        apply Rmult_le_compat_r; [lra|]. eapply Rle_trans; [exact UPP|].
        unfold c. rewrite hi_S. pose proof (hi_pos n). 
        assert (hi n * (X * Y + w) <= hi n * (X * Y + uu * (X * Y))) by (apply Rmult_le_compat_l; lra). lra.
  Qed.

  Lemma pw_close k m : pw dt n p k m -> INR k * (e + 4 * (INR (S n) * uu)) <= / 2 ->
    forall i, (i < n)%nat -> Rabs (rsumn n (m i) - 1) <= 2 * (INR k * (e + 4 * (INR (S n) * uu))).
  Proof.
    intros H K i I.
    assert (NU : 0 <= INR (S n) * uu) by (apply Rmult_le_pos; [apply pos_INR|pose proof uu_pos; lra]).
    assert (SN : INR (S n) * uu <= / 1000).
    { rewrite S_INR, uu_val. pose proof (pos_INR n). lra. }
    set (x := INR (S n) * uu) in *. pose proof (pos_INR k) as K0.
    assert (K' : INR k * (e + x) <= / 2) by nra.
    destruct (pw_rows k m H K' i I) as [L U].
    pose proof (pw_nonneg _ _ _ _ _ D P H) as NM.
    assert (S0 : 0 <= rsumn n (m i)) by (apply rsumn_nonneg; intros; now apply NM).
    set (s := rsumn n (m i)) in *.
    assert (d1 : 0 < d <= 1) by (split; [apply lo_pos|apply lo_le1]).
    assert (c1 : 1 <= c) by apply hi_ge1.
    assert (cx : c <= 1 + 2 * x) by (apply hi_le; fold x; lra).
    assert (Q1 : 0 <= e + x <= 1).
    { assert (1 <= INR k) by (apply (le_INR 1); now apply pw_pos in H). nra. }
    pose proof (bernoulli _ k Q1) as BL. change (1 - (e + x)) with q in BL.
    assert (BU : ((1 + e) * c) ^ k <= 1 + 2 * (INR k * (e + 4 * x))).
    { eapply Rle_trans; [apply pow_incr; split; [nra|]|apply pow_up; [lra|exact K]].
      apply (Rle_trans _ ((1 + e) * (1 + 2 * x))); [apply Rmult_le_compat_l; lra|nra]. }
    apply Rabs_le. split.
    - assert (s * d <= s) by nra. assert (INR k * (e + x) <= INR k * (e + 4 * x)) by (apply Rmult_le_compat_l; lra).
      assert (0 <= INR k * (e + x)) by (apply Rmult_le_pos; lra). lra.
    - assert (s <= s * c) by nra. lra.
  Qed.
End Rows.

(** ** which entries of a computed power are positive *)
Lemma rsumn_pos n f i : (forall j, (j < n)%nat -> 0 <= f j) -> (i < n)%nat -> 0 < f i -> 0 < rsumn n f.
Proof. intros F I P. pose proof (rsumn_in n f i F I). lra. Qed.
Lemma rsumn_pos_ex n f : (forall j, (j < n)%nat -> 0 <= f j) -> 0 < rsumn n f -> exists i, (i < n)%nat /\ 0 < f i.
Proof.
  unfold rsumn. assert (G : forall l, (forall j, In j l -> (j < n)%nat) -> (forall j, (j < n)%nat -> 0 <= f j) -> 0 < rsum (map f l) -> exists i, (i < n)%nat /\ 0 < f i).
  { induction l as [|x l IH]; simpl; intros L F P; [lra|].
    destruct (Rlt_le_dec 0 (f x)) as [Q|Q]; [exists x; auto|]. apply IH; auto. lra. }
  intros. apply (G (seq 0 n)); auto. intros j J. apply in_seq in J; lia.
Qed.
Lemma steps_nonneg n p k : nnm n p -> nnm n (steps n p k).
Proof.
  intros P. induction k as [|k IH]; intros i j I J; simpl; [destruct (Nat.eqb i j); lra|].
  apply rsumn_nonneg. intros l L. apply Rmult_le_pos; auto.
Qed.
Lemma steps_add n p j l : forall i m, (i < n)%nat -> (m < n)%nat ->
  steps n p (j + l) i m = rsumn n (fun x => steps n p j i x * steps n p l x m).
Proof.
  induction j as [|j IH]; intros i m I M.
  - cbn [steps plus]. rewrite (rsumn_ext n _ (fun x => steps n p l i m * eye i x)).
    + rewrite rsumn_scal, eye_sum by exact I. ring.
    + intros x X. unfold eye. destruct (Nat.eqb_spec i x) as [->|]; ring.
  - cbn [steps plus]. rewrite (rsumn_ext n (fun x => rsumn n (fun l0 => p i l0 * steps n p j l0 x) * steps n p l x m)
      (fun x => rsumn n (fun y => p i y * steps n p j y x * steps n p l x m))).
    + rewrite rsumn_swap. apply rsumn_ext. intros y Y. rewrite IH by auto. rewrite <- rsumn_scal. apply rsumn_ext. intros; ring.
    + intros x X. rewrite Rmult_comm, <- rsumn_scal. apply rsumn_ext. intros; ring.
Qed.
Lemma steps_1 n p i m : (i < n)%nat -> (m < n)%nat -> steps n p 1 i m = p i m.
Proof.
  intros I M. cbn [steps]. rewrite (rsumn_ext n _ (fun x => p i m * eye m x)).
  - rewrite rsumn_scal, eye_sum by exact M. ring.
  - intros x X. unfold eye. rewrite (Nat.eqb_sym m x). destruct (Nat.eqb_spec x m) as [->|]; ring.
Qed.

Lemma pw_support dt n p k a : dotting dt -> nnm n p -> pw dt n p k a ->
  forall i j, (i < n)%nat -> (j < n)%nat -> 0 < a i j -> 0 < steps n p k i j.
Proof.
  intros D P. induction 1 as [|j l a b A IHa B IHb]; intros i m I M H.
  - now rewrite steps_1.
  - pose proof (pw_nonneg _ _ _ _ _ D P A) as NA. pose proof (pw_nonneg _ _ _ _ _ D P B) as NB.
    assert (T : 0 < rsumn n (fun x => a i x * b x m)).
    { destruct (Rlt_le_dec 0 (rsumn n (fun x => a i x * b x m))) as [Q|Q]; auto.
      pose proof tiny_pos. rewrite (mul_zero dt n a b i m) in H by (auto; lra). lra. }
    apply rsumn_pos_ex in T. 2: { intros; apply Rmult_le_pos; auto. }
    destruct T as (x & X & T).
    assert (0 < a i x) by (pose proof (NA i x I X); pose proof (NB x m X M); nra).
    assert (0 < b x m) by (pose proof (NA i x I X); pose proof (NB x m X M); nra).
    rewrite steps_add by auto. apply (rsumn_pos _ _ x); auto.
    + intros y Y. apply Rmult_le_pos; now apply steps_nonneg.
    + apply Rmult_lt_0_compat; auto.
Qed.

Lemma pw_positive dt n p (e : nat) k a : dotting dt -> nnm n p ->
  (forall i j, (i < n)%nat -> (j < n)%nat -> 0 < p i j -> bpow radix2 (- Z.of_nat e) <= p i j) ->
  pw dt n p k a -> (Z.of_nat e * Z.of_nat k <= 1074)%Z ->
  forall i j, (i < n)%nat -> (j < n)%nat -> 0 < steps n p k i j -> bpow radix2 (- (Z.of_nat e * Z.of_nat k)) <= a i j.
Proof.
  intros D P G. induction 1 as [|j l a b A IHa B IHb]; intros K i m I M H.
  - rewrite Z.mul_1_r. rewrite steps_1 in H by auto. auto.
  - pose proof (pw_nonneg _ _ _ _ _ D P A) as NA. pose proof (pw_nonneg _ _ _ _ _ D P B) as NB.
    rewrite steps_add in H by auto. apply rsumn_pos_ex in H.
    2: { intros y Y. apply Rmult_le_pos; now apply steps_nonneg. }
    destruct H as (x & X & H).
    assert (0 < steps n p j i x) by (pose proof (steps_nonneg n p j P i x I X); pose proof (steps_nonneg n p l P x m X M); nra).
    assert (0 < steps n p l x m) by (pose proof (steps_nonneg n p j P i x I X); pose proof (steps_nonneg n p l P x m X M); nra).
    rewrite Nat2Z.inj_add, Z.mul_add_distr_l in *.
    assert (Ka : (Z.of_nat e * Z.of_nat j <= 1074)%Z) by lia. assert (Kb : (Z.of_nat e * Z.of_nat l <= 1074)%Z) by lia.
    pose proof (IHa Ka i x I X H0). pose proof (IHb Kb x m X M H1).
    eapply Rle_trans; [|apply (mul_ge dt n a b i m x D NA NB I M X)].
    rewrite Z.opp_add_distr. rewrite <- (rnd_id (bpow radix2 _)) by (apply is_double_bpow; lia).
    apply rnd_le. rewrite bpow_plus. apply Rmult_le_compat; auto using bpow_ge_0.
Qed.

Theorem regular_sound dt n nz p : dotting dt -> nnm n p -> f_is_regular dt n nz p ->
  exists k, (1 <= k)%nat /\ forall i j, (i < n)%nat -> (j < n)%nat -> 0 < steps n p k i j.
Proof.
  intros D P H. exists (Pos.to_nat (Z.to_pos (regular_exponent n nz))). split; [lia|].
  intros i j I J. apply (pw_support dt n p _ _ D P (power_pw dt n p _)); auto.
Qed.
Theorem regular_exact dt n nz p (e : nat) : dotting dt -> nnm n p ->
  (forall i j, (i < n)%nat -> (j < n)%nat -> 0 < p i j -> bpow radix2 (- Z.of_nat e) <= p i j) ->
  (0 < regular_exponent n nz)%Z -> (Z.of_nat e * regular_exponent n nz <= 1074)%Z ->
  (f_is_regular dt n nz p <-> forall i j, (i < n)%nat -> (j < n)%nat -> 0 < steps n p (Z.to_nat (regular_exponent n nz)) i j).
Proof.
  intros D P G K0 K. unfold f_is_regular. set (z := regular_exponent n nz) in *.
  assert (EK : Pos.to_nat (Z.to_pos z) = Z.to_nat z) by (destruct z; try lia; reflexivity).
  pose proof (power_pw dt n p (Z.to_pos z)) as PW. rewrite EK in PW.
  split; intros H i j I J.
  - apply (pw_support dt n p _ _ D P PW); auto.
  - eapply Rlt_le_trans; [|apply (pw_positive dt n p e _ _ D P G PW); auto].
    + apply bpow_gt_0.
    + rewrite Z2Nat.id by lia. exact K.
Qed.
