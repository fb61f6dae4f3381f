(** L_Float2: the constructor, merge_with and to_lazy_chain in doubles. *)
From Coq Require Import Reals Lra Lia List ZArith Permutation.
From Flocq Require Import Core.
From Verif Require Import Fl M_Float S_Float L_Float1.
Import ListNotations.
Local Open Scope R_scope.

Lemma is_double_opp x : is_double x -> is_double (- x).
Proof. apply generic_format_opp. Qed.
Lemma tiny_le x : uu <= x -> tiny <= x.
Proof. pose proof tiny_uu; lra. Qed.

(** ** isclose *)
Lemma rnd_sub_1 v : is_double v -> Rabs (rnd (v - 1) - (v - 1)) <= uu * Rabs (v - 1).
Proof. intros. apply (rnd_add v (- 1)); auto. apply is_double_opp, is_double_1. Qed.

Lemma tol_bounds : 1 / 100000 <= rnd (rnd (1 / 100000000) + rnd (rnd (1 / 100000) * 1)) <= 100100001 / 10000000000000.
Proof.
  pose proof uu_val as UV. pose proof tiny_uu as TU. pose proof tiny_pos as TP.
  set (a := rnd (1 / 100000000)). set (b := rnd (1 / 100000)).
  assert (A : 1 / 100000000 * (1 - uu) - tiny <= a <= 1 / 100000000 * (1 + uu) + tiny)
    by (split; [apply rnd_0_lo|apply rnd_0_up]; lra).
  assert (B : 1 / 100000 * (1 - uu) - tiny <= b <= 1 / 100000 * (1 + uu) + tiny)
    by (split; [apply rnd_0_lo|apply rnd_0_up]; lra).
  rewrite Rmult_1_r, (rnd_id b) by apply is_double_rnd.
  assert (FA : is_double a) by apply is_double_rnd. assert (FB : is_double b) by apply is_double_rnd.
  rewrite UV in *.
  pose proof (rnd_add_up a b FA FB ltac:(lra)) as Up. pose proof (rnd_add_lo a b FA FB ltac:(lra)) as Lo.
  rewrite UV in *. lra.
Qed.

Lemma close_in v : is_double v -> Rabs (v - 1) <= 99 / 10000000 -> f_close1 v.
Proof.
  intros F H. unfold f_close1. eapply Rle_trans; [|apply tol_bounds].
  pose proof (rnd_sub_1 v F) as E. pose proof uu_val as UV. rewrite UV in E.
  pose proof (Rabs_triang (rnd (v - 1) - (v - 1)) (v - 1)) as T.
  replace (rnd (v - 1) - (v - 1) + (v - 1)) with (rnd (v - 1)) in T by ring. lra.
Qed.
Lemma close_out v : is_double v -> f_close1 v -> Rabs (v - 1) <= 100100002 / 10000000000000.
Proof.
  intros F H. unfold f_close1 in H. pose proof tol_bounds as [_ T].
  pose proof (rnd_sub_1 v F) as E. pose proof uu_val as UV. rewrite UV in E.
  pose proof (Rabs_triang (rnd (v - 1)) ((v - 1) - rnd (v - 1))) as G.
  replace (rnd (v - 1) + (v - 1 - rnd (v - 1))) with (v - 1) in G by ring.
  rewrite (Rabs_minus_sym (v - 1)) in G. lra.
Qed.

(** ** the constructor *)
Lemma frow_rsum n f : rsum (frow n f) = rsumn n f.
Proof. reflexivity. Qed.
Lemma frow_length n f : length (frow n f) = n.
Proof. unfold frow. now rewrite map_length, seq_length. Qed.
Lemma in_frow n f x : In x (frow n f) -> exists j, (j < n)%nat /\ x = f j.
Proof. intros I. apply in_map_iff in I. destruct I as (j & <- & I). exists j. apply in_seq in I. split; auto; lia. Qed.

Lemma row_bounds sm n f : summing sm -> (forall j, (j < n)%nat -> dnn (f j)) ->
  dnn (sm (frow n f)) /\ lo n * rsumn n f <= sm (frow n f) <= hi n * rsumn n f.
Proof.
  intros S D. pose proof (fsum_bounds _ _ (S (frow n f))) as B. rewrite frow_length, frow_rsum in B.
  apply B. intros x I. destruct (in_frow _ _ _ I) as (j & J & ->). auto.
Qed.

Theorem typed_accepted sm n p : summing sm -> (2 <= n)%nat -> INR n <= 10000000000 ->
  stochasticR n p -> f_accepts sm n (fun i j => rnd (p i j)).
Proof.
  intros S N2 N [NN RS].
  assert (LE : forall i j, (i < n)%nat -> (j < n)%nat -> p i j <= 1).
  { intros i j I J. rewrite <- (RS i I). apply rsumn_in; auto. }
  assert (D : forall i j, (i < n)%nat -> (j < n)%nat -> dnn (rnd (p i j))).
  { intros i j I J. split; [apply is_double_rnd|]. apply rnd_nonneg; auto. }
  split; [exact N2|]. split.
  - intros i j I J. destruct (D i j I J). repeat split; auto. apply rnd_le_1; auto.
  - intros i I. destruct (row_bounds sm n (fun j => rnd (p i j)) S (fun j => D i j I)) as [[F _] [L U]].
    apply close_in; [exact F|]. set (v := sm _) in *. clearbody v.
    pose proof uu_val as UV. pose proof uu_pos as UP. pose proof tiny_uu as TU. pose proof tiny_pos as TP.
    assert (SU : rsumn n (fun j => rnd (p i j)) <= 1 + uu + INR n * uu).
    { eapply Rle_trans; [apply (rsumn_le n _ (fun j => p i j * (1 + uu) + tiny)); intros; apply rnd_0_up; auto|].
      rewrite rsumn_add, rsumn_const, (rsumn_ext n _ (fun j => (1 + uu) * p i j)) by (intros; ring).
      rewrite rsumn_scal. rewrite (RS i I). pose proof (pos_INR n). nra. }
    assert (SL : 1 - uu - INR n * uu <= rsumn n (fun j => rnd (p i j))).
    { eapply Rle_trans; [|apply (rsumn_le n (fun j => p i j * (1 - uu) + - tiny)); intros; pose proof (rnd_0_lo (p i i0)); assert (0 <= p i i0) by auto; lra].
      rewrite rsumn_add, rsumn_const, (rsumn_ext n _ (fun j => (1 - uu) * p i j)) by (intros; ring).
      rewrite rsumn_scal. rewrite (RS i I). pose proof (pos_INR n). nra. }
    set (s := rsumn n _) in *. clearbody s.
    assert (NU : 0 <= INR n * uu <= / 900000) by (split; [apply Rmult_le_pos; [apply pos_INR|lra]|rewrite UV; lra]).
    pose proof (hi_le n ltac:(lra)) as H. pose proof (lo_ge n) as Lo. pose proof (lo_pos n). pose proof (hi_pos n).
    set (x := INR n * uu) in *. clearbody x.
    assert (v <= (1 + 2 * x) * (1 + uu + x)).
    { eapply Rle_trans; [exact U|]. apply Rmult_le_compat; try lra. }
    assert ((1 - x) * (1 - uu - x) <= v).
    { eapply Rle_trans; [|exact L]. apply Rmult_le_compat; try lra. }
    rewrite UV in *. apply Rabs_le. nra.
Qed.

Theorem accepted_sums sm n p : summing sm -> INR n <= 1000000 -> f_accepts sm n p ->
  forall i, (i < n)%nat -> Rabs (rsumn n (p i) - 1) <= 10011 / 1000000000.
Proof.
  intros S N (_ & D & C) i I.
  destruct (row_bounds sm n (p i) S) as [[F _] [L U]]; [intros j J; destruct (D i j I J) as (? & ? & ?); split; auto|].
  pose proof (close_out _ F (C i I)) as O. set (v := sm _) in *. clearbody v.
  assert (NN : 0 <= rsumn n (p i)) by (apply rsumn_nonneg; intros j J; now destruct (D i j I J) as (? & ? & ?)).
  set (s := rsumn n (p i)) in *. clearbody s.
  pose proof uu_val as UV. pose proof uu_pos as UP.
  assert (NU : 0 <= INR n * uu <= / 9000000000) by (split; [apply Rmult_le_pos; [apply pos_INR|lra]|rewrite UV; lra]).
  pose proof (hi_le n ltac:(lra)) as H. pose proof (lo_ge n) as Lo.
  set (x := INR n * uu) in *. clearbody x.
  assert (v <= (1 + 2 * x) * s) by (eapply Rle_trans; [exact U|]; apply Rmult_le_compat_r; lra).
  assert ((1 - x) * s <= v) by (eapply Rle_trans; [|exact L]; apply Rmult_le_compat_r; lra).
  apply Rabs_le_inv in O. apply Rabs_le. 
  assert (s <= 2) by nra. nra.
Qed.

(** ** merge_with *)
Lemma mul_le_rnd a b : is_double a -> 0 <= a -> 0 <= b <= 1 -> 0 <= rnd (a * b) <= a.
Proof.
  intros F A B. split. { apply rnd_nonneg, Rmult_le_pos; lra. }
  rewrite <- (rnd_id a) at 2 by exact F. apply rnd_le. nra.
Qed.
Lemma merge_range g p q i j : is_double g -> 0 <= g <= 1 -> 0 <= p i j <= 1 -> 0 <= q i j <= 1 ->
  is_double (f_merge g p q i j) /\ 0 <= f_merge g p q i j <= 1.
Proof.
  intros G Gr P Q. unfold f_merge. split; [apply is_double_rnd|].
  assert (A : 0 <= rnd (1 - g)) by (apply rnd_nonneg; lra).
  pose proof (mul_le_rnd (rnd (1 - g)) (p i j) (is_double_rnd _) A P) as M1.
  pose proof (mul_le_rnd g (q i j) G (proj1 Gr) Q) as M2.
  split; [apply rnd_nonneg; lra|].
  eapply Rle_trans; [|apply (one_minus g G Gr)]. apply rnd_le. lra.
Qed.

(** one entry is computed up to a relative error of a few units and a tiny absolute one *)
Lemma blend_up g x y : is_double g -> 0 <= g <= 1 -> 0 <= x -> 0 <= y ->
  rnd (rnd (rnd (1 - g) * x) + rnd (g * y)) <= (1 + 4 * uu) * ((1 - g) * x + g * y) + 4 * tiny.
Proof.
  intros G Gr X Y. pose proof uu_val as UV. pose proof uu_pos as UP. pose proof tiny_pos as TP.
  assert (A : 0 <= rnd (1 - g) <= (1 + uu) * (1 - g)).
  { split; [apply rnd_nonneg; lra|]. apply (rnd_add_up 1 (- g)); [apply is_double_1|now apply is_double_opp|lra]. }
  set (a := rnd (1 - g)) in *. clearbody a.
  assert (M : 0 <= a * x) by (apply Rmult_le_pos; lra). assert (M' : 0 <= g * y) by (apply Rmult_le_pos; lra).
  pose proof (rnd_0_up _ M) as U1. pose proof (rnd_0_up _ M') as U2.
  pose proof (rnd_nonneg _ M). pose proof (rnd_nonneg _ M').
  pose proof (rnd_add_up _ _ (is_double_rnd (a * x)) (is_double_rnd (g * y)) ltac:(lra)) as U3.
  set (s := rnd (_ + _)) in *. set (b := rnd (a * x)) in *. set (c := rnd (g * y)) in *. clearbody s b c.
  assert (AX : a * x <= (1 + uu) * (1 - g) * x) by (apply Rmult_le_compat_r; lra).
  set (e := (1 - g) * x) in *. set (f := g * y) in *.
  assert (E : 0 <= e) by (unfold e; apply Rmult_le_pos; lra).
  replace ((1 + uu) * (1 - g) * x) with ((1 + uu) * e) in AX by (unfold e; ring).
  clearbody e f. rewrite UV in *. nra.
Qed.
Lemma blend_lo g x y : is_double g -> 0 <= g <= 1 -> 0 <= x -> 0 <= y ->
  (1 - 4 * uu) * ((1 - g) * x + g * y) - 4 * tiny <= rnd (rnd (rnd (1 - g) * x) + rnd (g * y)).
Proof.
  intros G Gr X Y. pose proof uu_val as UV. pose proof uu_pos as UP. pose proof tiny_pos as TP.
  assert (A : (1 - uu) * (1 - g) <= rnd (1 - g)).
  { apply (rnd_add_lo 1 (- g)); [apply is_double_1|now apply is_double_opp|lra]. }
  assert (A0 : 0 <= rnd (1 - g)) by (apply rnd_nonneg; lra).
  set (a := rnd (1 - g)) in *. clearbody a.
  assert (M : 0 <= a * x) by (apply Rmult_le_pos; lra). assert (M' : 0 <= g * y) by (apply Rmult_le_pos; lra).
  pose proof (rnd_0_lo _ M) as U1. pose proof (rnd_0_lo _ M') as U2.
  pose proof (rnd_nonneg _ M). pose proof (rnd_nonneg _ M').
  pose proof (rnd_add_lo _ _ (is_double_rnd (a * x)) (is_double_rnd (g * y)) ltac:(lra)) as U3.
  set (s := rnd (_ + _)) in *. set (b := rnd (a * x)) in *. set (c := rnd (g * y)) in *. clearbody s b c.
  assert (AX : (1 - uu) * (1 - g) * x <= a * x) by (apply Rmult_le_compat_r; lra).
  set (e := (1 - g) * x) in *. set (f := g * y) in *.
  assert (E : 0 <= e) by (unfold e; apply Rmult_le_pos; lra).
  replace ((1 - uu) * (1 - g) * x) with ((1 - uu) * e) in AX by (unfold e; ring).
  clearbody e f. rewrite UV in *. nra.
Qed.

Lemma INR_tiny n : INR n <= 10000000000 -> INR n * tiny <= uu / 100.
Proof.
  intros N. pose proof tiny_pos. assert (tiny <= bpow radix2 (-100)) by (apply bpow_le; lia).
  assert (E : bpow radix2 (-100) = / 1267650600228229401496703205376) by reflexivity.
  eapply Rle_trans; [apply Rmult_le_compat_r; [lra|exact N]|]. rewrite uu_val. lra.
Qed.

Theorem merge_sums n g p q e : (0 < n)%nat -> INR n <= 10000000000 -> is_double g -> 0 <= g <= 1 -> 0 <= e <= 1 ->
  (forall i j, (i < n)%nat -> (j < n)%nat -> 0 <= p i j /\ 0 <= q i j) ->
  (forall i, (i < n)%nat -> Rabs (rsumn n (p i) - 1) <= e /\ Rabs (rsumn n (q i) - 1) <= e) ->
  forall i, (i < n)%nat -> Rabs (rsumn n (f_merge g p q i) - 1) <= e + 16 * uu.
Proof.
  intros N0 N G Gr E NN RS i I. destruct (RS i I) as [A B]. apply Rabs_le_inv in A, B.
  assert (X : rsumn n (fun j => (1 - g) * p i j + g * q i j) = (1 - g) * rsumn n (p i) + g * rsumn n (q i))
    by (rewrite rsumn_add, !rsumn_scal; reflexivity).
  assert (C : 1 - e <= (1 - g) * rsumn n (p i) + g * rsumn n (q i) <= 1 + e) by nra.
  rewrite <- X in C. pose proof (INR_tiny n N) as T. pose proof uu_val as UV. pose proof tiny_pos as TP. pose proof uu_pos as UP.
  assert (U : rsumn n (f_merge g p q i) <= (1 + 4 * uu) * rsumn n (fun j => (1 - g) * p i j + g * q i j) + INR n * (4 * tiny)).
  { rewrite <- rsumn_scal, <- rsumn_const, <- rsumn_add. apply rsumn_le. intros j J. destruct (NN i j I J).
    apply blend_up; auto. }
  assert (L : (1 - 4 * uu) * rsumn n (fun j => (1 - g) * p i j + g * q i j) + INR n * - (4 * tiny) <= rsumn n (f_merge g p q i)).
  { rewrite <- rsumn_scal, <- rsumn_const, <- rsumn_add. apply rsumn_le. intros j J. destruct (NN i j I J).
    apply blend_lo; auto. }
  set (s := rsumn n (f_merge g p q i)) in *. set (t := rsumn n (fun j => _)) in *. clearbody s t.
  apply Rabs_le. split; nra.
Qed.

(** ** to_lazy_chain *)
Definition eye : fmat := fun i j => if Nat.eqb i j then 1 else 0.
Lemma lazy_blend w p i j : is_double (w i) ->
  f_lazy w p i j = rnd (rnd (rnd (1 - w i) * p i j) + rnd (w i * eye i j)).
Proof.
  intros F. unfold f_lazy, eye. destruct (Nat.eqb_spec i j) as [->|]; [now rewrite Rmult_1_l, Rmult_1_r|now rewrite Rmult_0_l, Rmult_0_r].
Qed.
Lemma lazy_range w p i j : is_double (w i) -> 0 <= w i <= 1 -> 0 <= p i j <= 1 ->
  is_double (f_lazy w p i j) /\ 0 <= f_lazy w p i j <= 1.
Proof.
  intros F W P. rewrite lazy_blend by exact F. apply (merge_range (w i) p eye); auto.
  unfold eye. destruct (Nat.eqb i j); lra.
Qed.
Lemma eye_sum n i : (i < n)%nat -> rsumn n (eye i) = 1.
Proof.
  intros I. unfold rsumn, eye.
  replace n with (i + (1 + (n - i - 1)))%nat by lia. rewrite !seq_app, !map_app, !rsum_app. simpl (0 + i)%nat. cbn [seq map rsum].
  rewrite Nat.eqb_refl.
  assert (Z1 : rsum (map (fun j => if (i =? j)%nat then 1 else 0) (seq 0 i)) = 0).
  { rewrite (map_ext_in _ (fun _ => 0)). { rewrite rsum_map_const; lra. }
    intros a H. apply in_seq in H. destruct (Nat.eqb_spec i a); [lia|reflexivity]. }
  assert (Z2 : rsum (map (fun j => if (i =? j)%nat then 1 else 0) (seq (i + 1) (n - i - 1))) = 0).
  { rewrite (map_ext_in _ (fun _ => 0)). { rewrite rsum_map_const; lra. }
    intros a H. apply in_seq in H. destruct (Nat.eqb_spec i a); [lia|reflexivity]. }
  rewrite Z1, Z2. lra.
Qed.
Theorem lazy_sums n w p e : (0 < n)%nat -> INR n <= 10000000000 -> 0 <= e <= 1 ->
  (forall i, (i < n)%nat -> is_double (w i) /\ 0 <= w i <= 1) ->
  (forall i j, (i < n)%nat -> (j < n)%nat -> 0 <= p i j) ->
  (forall i, (i < n)%nat -> Rabs (rsumn n (p i) - 1) <= e) ->
  forall i, (i < n)%nat -> Rabs (rsumn n (f_lazy w p i) - 1) <= e + 16 * uu.
Proof.
  intros N0 N E W NN RS i I. destruct (W i I) as [F Wr].
  rewrite (rsumn_ext n _ (fun j => f_merge (w i) (fun _ => p i) (fun _ => eye i) i j)) by (intros; now rewrite lazy_blend).
  apply (merge_sums n (w i) (fun _ => p i) (fun _ => eye i) e); auto.
  - intros _ j _ J. split; [now apply NN|]. unfold eye. destruct (Nat.eqb i j); lra.
  - intros _ _. split; [now apply RS|]. rewrite eye_sum by exact I. replace (1 - 1) with 0 by ring. rewrite Rabs_R0. lra.
Qed.
