(** L_FloatSim: simulation in doubles. *)
From Coq Require Import Reals Lra Lia List ZArith Permutation Bool.
From Flocq Require Import Core.
From Verif Require Import Fl M_Float S_Float L_Float1 L_Float2 M_FloatNorm S_FloatNorm L_FloatNorm M_FloatSim S_FloatSim.
Import ListNotations.
Local Open Scope R_scope.

Lemma rnd_sub x y : is_double x -> is_double y -> Rabs (rnd (x - y) - (x - y)) <= uu * Rabs (x - y).
Proof. intros. apply (rnd_add x (- y)); auto. now apply is_double_opp. Qed.

(** ** compensated summation *)
Lemma kahan_step_ok s c d e A : is_double s -> is_double c -> is_double d -> 0 <= d <= 2 ->
  Rabs c <= 11 * uu -> Rabs s <= 3 -> Rabs (s - e) <= A ->
  let sc := kahan_step (s, c) d in
  is_double (fst sc) /\ is_double (snd sc) /\ Rabs (snd sc) <= 11 * uu /\ Rabs (fst sc - (e + d)) <= A + 20 * uu.
Proof.
  intros Fs Fc Fd D C S0 E. unfold kahan_step; cbn [fst snd].
  pose proof uu_pos as UP. assert (UV : uu <= / 1000000) by (rewrite uu_val; lra).
  set (y := rnd (d - c)). assert (Fy : is_double y) by apply is_double_rnd.
  pose proof (rnd_sub d c Fd Fc) as Ey. fold y in Ey.
  assert (DC : Rabs (d - c) <= 2 + 11 * uu).
  { eapply Rle_trans; [apply Rabs_triang|]. rewrite Rabs_Ropp, (Rabs_pos_eq d); lra. }
  assert (Ey2 : Rabs (y - (d - c)) <= uu * (2 + 11 * uu)).
  { eapply Rle_trans; [exact Ey|]. apply Rmult_le_compat_l; lra. }
  assert (Ey3 : Rabs (y - (d - c)) <= 21 / 10 * uu).
  { eapply Rle_trans; [exact Ey2|]. rewrite Rmult_comm. apply Rmult_le_compat_r; lra. }
  assert (Y : Rabs y <= 21 / 10).
  { replace y with ((y - (d - c)) + (d - c)) by ring. eapply Rle_trans; [apply Rabs_triang|]. lra. }
  set (t := rnd (s + y)). assert (Ft : is_double t) by apply is_double_rnd.
  pose proof (rnd_add s y Fs Fy) as Et. fold t in Et.
  assert (SY : Rabs (s + y) <= 52 / 10) by (eapply Rle_trans; [apply Rabs_triang|]; lra).
  assert (Et2 : Rabs (t - (s + y)) <= 52 / 10 * uu).
  { eapply Rle_trans; [exact Et|]. rewrite Rmult_comm. apply Rmult_le_compat_r; lra. }
  assert (TS : Rabs (t - s) <= 22 / 10).
  { replace (t - s) with ((t - (s + y)) + y) by ring. eapply Rle_trans; [apply Rabs_triang|]. lra. }
  set (z := rnd (t - s)). assert (Fz : is_double z) by apply is_double_rnd.
  pose proof (rnd_sub t s Ft Fs) as Ez. fold z in Ez.
  assert (Ez2 : Rabs (z - (t - s)) <= 22 / 10 * uu).
  { eapply Rle_trans; [exact Ez|]. rewrite Rmult_comm. apply Rmult_le_compat_r; lra. }
  assert (ZY : Rabs (z - y) <= 74 / 10 * uu).
  { replace (z - y) with ((z - (t - s)) + (t - (s + y))) by ring. eapply Rle_trans; [apply Rabs_triang|]. lra. }
  pose proof (rnd_sub z y Fz Fy) as Ec.
  split; [exact Ft|]. split; [apply is_double_rnd|]. split.
  - replace (rnd (z - y)) with ((rnd (z - y) - (z - y)) + (z - y)) by ring.
    eapply Rle_trans; [apply Rabs_triang|].
    assert (uu * Rabs (z - y) <= 1 * Rabs (z - y)) by (apply Rmult_le_compat_r; [apply Rabs_pos|lra]).
    assert (uu * Rabs (z - y) <= uu * 1) by (apply Rmult_le_compat_l; lra). lra.
  - replace (t - (e + d)) with ((t - (s + y)) + ((y - (d - c)) + ((s - e) + - c))) by ring.
    eapply Rle_trans; [apply Rabs_triang|]. pose proof (Rabs_triang (y - (d - c)) ((s - e) + - c)) as T1.
    pose proof (Rabs_triang (s - e) (- c)) as T2. rewrite Rabs_Ropp in T2. lra.
Qed.

Lemma kahan_fold l : forall s c e A, is_double s -> is_double c -> (forall x, In x l -> dnn x) ->
  0 <= e -> e + rsum l <= 2 -> Rabs c <= 11 * uu -> Rabs (s - e) <= A -> A + 20 * INR (length l) * uu <= 1 ->
  Rabs (fst (fold_left kahan_step l (s, c)) - (e + rsum l)) <= A + 20 * INR (length l) * uu /\
  is_double (fst (fold_left kahan_step l (s, c))).
Proof.
  induction l as [|d l IH]; intros s c e A Fs Fc D E0 T C Es B.
  - cbn [fold_left fst rsum length INR]. rewrite Rplus_0_r. split; [lra|exact Fs].
  - destruct (D d (or_introl eq_refl)) as [Fd D0].
    assert (DL : forall x, In x l -> dnn x) by (intros; apply D; now right).
    assert (R0 : 0 <= rsum l) by (apply rsum_nonneg; intros x I; now apply DL).
    cbn [rsum] in T. cbn [length] in *. rewrite S_INR in *. pose proof uu_pos as UP.
    pose proof (pos_INR (length l)) as LP. assert (LU : 0 <= INR (length l) * uu) by (apply Rmult_le_pos; lra).
    assert (S3 : Rabs s <= 3).
    { replace s with ((s - e) + e) by ring. eapply Rle_trans; [apply Rabs_triang|]. rewrite (Rabs_pos_eq e); lra. }
    destruct (kahan_step_ok s c d e A Fs Fc Fd ltac:(lra) C S3 Es) as (F1 & F2 & C1 & E1).
    cbn [fold_left rsum]. destruct (kahan_step (s, c) d) as [s' c']. cbn [fst snd] in *.
    destruct (IH s' c' (e + d) (A + 20 * uu) F1 F2 DL ltac:(lra) ltac:(lra) C1 E1 ltac:(lra)) as [G1 G2].
    split; [|exact G2]. replace (e + (d + rsum l)) with (e + d + rsum l) by ring. lra.
Qed.

Lemma kahan_ok l : (forall x, In x l -> dnn x) -> rsum l <= 2 -> INR (length l) <= 1000000 ->
  Rabs (kahan_sum l - rsum l) <= 20 * INR (length l) * uu /\ is_double (kahan_sum l).
Proof.
  intros D T N. destruct l as [|x l].
  - cbn. rewrite Rminus_0_r, Rabs_R0. split; [lra|apply is_double_0].
  - destruct (D x (or_introl eq_refl)) as [Fx X0]. cbn [rsum length] in *. rewrite S_INR in *.
    assert (DL : forall x, In x l -> dnn x) by (intros; apply D; now right). pose proof uu_pos as UP.
    destruct (kahan_fold l x 0 x 0 Fx is_double_0 DL X0 T) as [G1 G2].
    + rewrite Rabs_R0. lra.
    + rewrite Rminus_diag_eq, Rabs_R0 by reflexivity. lra.
    + rewrite uu_val. lra.
    + unfold kahan_sum. split; [lra|exact G2].
Qed.

(** ** the cumulative sums *)
Lemma frow_S n f : frow (S n) f = frow n f ++ [f n].
Proof. unfold frow. rewrite seq_S, map_app. reflexivity. Qed.
Lemma rsumn_S n f : rsumn (S n) f = rsumn n f + f n.
Proof. rewrite <- !frow_rsum, frow_S, rsum_app. cbn [rsum]. ring. Qed.
Lemma cumsum_fsum w j : fsum (frow (S j) w) (f_cumsum w j).
Proof.
  induction j as [|j IH].
  - cbn. constructor.
  - rewrite frow_S. cbn [f_cumsum]. econstructor; [reflexivity|exact IH|constructor].
Qed.

Section Choice.
Variables (n : nat) (w : nat -> R).
Hypothesis N1 : (1 <= n)%nat.
Hypothesis N : INR n <= 1000000.
Hypothesis D : forall j, (j < n)%nat -> is_double (w j) /\ 0 <= w j.
Hypothesis T : Rabs (rsumn n w - 1) <= / 100000000.

Lemma tot : 99 / 100 <= rsumn n w <= 101 / 100.
Proof. apply Rabs_le_inv in T. lra. Qed.
Lemma in_prefix j x : (j <= n)%nat -> In x (frow j w) -> dnn x.
Proof. intros J I. destruct (in_frow _ _ _ I) as (l & L & ->). apply D. lia. Qed.
Lemma cum_dnn j : (j < n)%nat -> dnn (f_cumsum w j).
Proof. intros J. apply (fsum_bounds _ _ (cumsum_fsum w j)). intros x I. apply (in_prefix (S j)); [lia|exact I]. Qed.
Lemma cum_mono j : (S j < n)%nat -> f_cumsum w j <= f_cumsum w (S j).
Proof.
  intros J. destruct (cum_dnn j ltac:(lia)) as [F _]. cbn [f_cumsum]. rewrite <- (rnd_id _ F) at 1. apply rnd_le.
  destruct (D (S j) J). lra.
Qed.
Lemma cum_zero j : (S j < n)%nat -> w (S j) = 0 -> f_cumsum w (S j) = f_cumsum w j.
Proof. intros J Z. destruct (cum_dnn j ltac:(lia)) as [F _]. cbn [f_cumsum]. rewrite Z, Rplus_0_r. now apply rnd_id. Qed.

Lemma nx : 0 <= INR n * uu <= / 9000000000 /\ uu <= INR n * uu.
Proof.
  pose proof uu_pos. assert (1 <= INR n) by (apply (le_INR 1); exact N1). split; [split|].
  - apply Rmult_le_pos; lra.
  - rewrite uu_val. lra.
  - nra.
Qed.
Lemma prefix_le j : (j <= n)%nat -> 0 <= rsumn j w <= rsumn n w.
Proof.
  intros J. split; [apply rsumn_nonneg; intros i I; apply D; lia|].
  replace n with (j + (n - j))%nat by lia. unfold rsumn. rewrite seq_app, map_app, rsum_app.
  assert (0 <= rsum (map w (seq (0 + j) (n - j)))); [|lra].
  apply rsum_nonneg. intros x I. apply in_map_iff in I. destruct I as (l & <- & I). apply in_seq in I. apply D. lia.
Qed.
Lemma cum_bounds j : (j < n)%nat ->
  (1 - INR n * uu) * rsumn (S j) w <= f_cumsum w j <= (1 + 2 * (INR n * uu)) * rsumn (S j) w.
Proof.
  intros J. pose proof nx as [X XU].
  destruct (fsum_bounds _ _ (cumsum_fsum w j)) as [_ [L U]]; [intros x I; apply (in_prefix (S j)); [lia|exact I]|].
  rewrite frow_length, frow_rsum in L, U. destruct (prefix_le (S j) ltac:(lia)) as [P _].
  pose proof (lo_ge n) as A. pose proof (hi_le n ltac:(lra)) as B.
  pose proof (lo_anti (S j) n ltac:(lia)) as A2. pose proof (hi_mono (S j) n ltac:(lia)) as B2. split.
  - eapply Rle_trans; [|exact L]. apply Rmult_le_compat_r; lra.
  - eapply Rle_trans; [exact U|]. apply Rmult_le_compat_r; lra.
Qed.
Lemma last_pos : 0 < f_cumsum w (n - 1).
Proof.
  pose proof nx as [X XU]. destruct (cum_bounds (n - 1) ltac:(lia)) as [L _]. replace (S (n - 1)) with n in L by lia.
  pose proof tot. eapply Rlt_le_trans; [|exact L]. apply Rmult_lt_0_compat; lra.
Qed.
Lemma cdf_last : f_cdf n w (n - 1) = 1.
Proof. unfold f_cdf. pose proof last_pos. unfold Rdiv. rewrite Rinv_r by lra. apply rnd_1. Qed.
Lemma cdf_mono j : (S j < n)%nat -> f_cdf n w j <= f_cdf n w (S j).
Proof.
  intros J. unfold f_cdf. apply rnd_le. apply Rmult_le_compat_r; [left; apply Rinv_0_lt_compat, last_pos|now apply cum_mono].
Qed.
Lemma cdf_le i j : (i <= j)%nat -> (j < n)%nat -> f_cdf n w i <= f_cdf n w j.
Proof. intros I J. induction I as [|j I IH]; [lra|]. eapply Rle_trans; [apply IH; lia|]. apply cdf_mono; lia. Qed.

Lemma check_passes : Rabs (rnd (kahan_sum (frow n w) - 1)) <= / 67108864.
Proof.
  pose proof nx as [X XU]. pose proof tot as TT.
  destruct (kahan_ok (frow n w)) as [K F].
  - intros x I. apply (in_prefix n); [lia|exact I].
  - rewrite frow_rsum. lra.
  - rewrite frow_length. exact N.
  - rewrite frow_length, frow_rsum in K. set (v := kahan_sum (frow n w)) in *.
    assert (V : Rabs (v - 1) <= 123 / 10000000000).
    { replace (v - 1) with ((v - rsumn n w) + (rsumn n w - 1)) by ring. eapply Rle_trans; [apply Rabs_triang|].
      replace (20 * INR n * uu) with (20 * (INR n * uu)) in K by ring. lra. }
    pose proof (rnd_sub_1 v F) as E. assert (UV : uu <= / 1000000) by (rewrite uu_val; lra).
    replace (rnd (v - 1)) with ((rnd (v - 1) - (v - 1)) + (v - 1)) by ring. eapply Rle_trans; [apply Rabs_triang|].
    assert (uu * Rabs (v - 1) <= / 1000000 * Rabs (v - 1)) by (apply Rmult_le_compat_r; [apply Rabs_pos|exact UV]). lra.
Qed.

Lemma find_first (f : nat -> bool) k a j : find f (seq a k) = Some j ->
  (a <= j < a + k)%nat /\ f j = true /\ forall i, (a <= i < j)%nat -> f i = false.
Proof.
  revert a. induction k as [|k IH]; intros a; cbn [seq find]; [discriminate|].
  destruct (f a) eqn:E.
  - intros H. injection H as <-. split; [lia|]. split; [exact E|]. intros i I; lia.
  - intros H. destruct (IH (S a) H) as (B & F & G). split; [lia|]. split; [exact F|].
    intros i I. destruct (Nat.eq_dec i a) as [->|]; [exact E|]. apply G. lia.
Qed.

Lemma choice_find u : f_choice n w u = find (fun j => if Rlt_dec u (f_cdf n w j) then true else false) (seq 0 n).
Proof.
  unfold f_choice. destruct (Rlt_dec (/ 67108864) (Rabs (rnd (kahan_sum (frow n w) - 1)))) as [H|_]; [|reflexivity].
  pose proof check_passes. lra.
Qed.

Lemma choice_iff u j : 0 <= u < 1 -> (j < n)%nat ->
  (f_choice n w u = Some j <-> (match j with O => 0 | S i => f_cdf n w i end) <= u < f_cdf n w j).
Proof.
  intros U J. rewrite choice_find. split.
  - intros H. apply find_first in H. destruct H as (_ & F & G).
    destruct (Rlt_dec u (f_cdf n w j)) as [L|]; [|discriminate]. split; [|exact L].
    destruct j as [|i]; [lra|]. specialize (G i ltac:(lia)). cbn beta in G.
    destruct (Rlt_dec u (f_cdf n w i)); [discriminate|lra].
  - intros [L H]. destruct (find _ (seq 0 n)) as [k|] eqn:E.
    + apply find_first in E. destruct E as (B & F & G). f_equal. 
      destruct (Rlt_dec u (f_cdf n w k)) as [K|]; [|discriminate].
      destruct (Nat.lt_trichotomy k j) as [Q|[Q|Q]]; [exfalso|exact Q|exfalso].
      * destruct j as [|i]; [lia|]. pose proof (cdf_le k i ltac:(lia) ltac:(lia)). lra.
      * specialize (G j ltac:(lia)). cbn beta in G. destruct (Rlt_dec u (f_cdf n w j)); [discriminate|lra].
    + exfalso. pose proof (find_none _ _ E j ltac:(apply in_seq; lia)) as Q. cbn beta in Q.
      destruct (Rlt_dec u (f_cdf n w j)); [discriminate|lra].
Qed.

Theorem choice_possible u : 0 <= u < 1 -> exists j, (j < n)%nat /\ f_choice n w u = Some j /\ 0 < w j.
Proof.
  intros U. destruct (f_choice n w u) as [j|] eqn:E.
  - assert (J : (j < n)%nat) by (rewrite choice_find in E; apply find_first in E; lia).
    exists j. split; [exact J|]. split; [reflexivity|]. apply choice_iff in E; [|exact U|exact J].
    destruct (D j J) as [_ [P|Z]]; [exact P|exfalso]. symmetry in Z. destruct j as [|i].
    + unfold f_cdf in E. cbn [f_cumsum] in E. rewrite Z in E. unfold Rdiv in E. rewrite Rmult_0_l, rnd_0 in E. lra.
    + assert (Q : f_cdf n w (S i) = f_cdf n w i) by (unfold f_cdf; now rewrite cum_zero). lra.
  - exfalso. rewrite choice_find in E. pose proof (find_none _ _ E (n - 1)%nat ltac:(apply in_seq; lia)) as Q.
    cbn beta in Q. rewrite cdf_last in Q. destruct (Rlt_dec u 1); [discriminate|lra].
Qed.

Lemma cdf_near j : (j < n)%nat -> Rabs (f_cdf n w j - rsumn (S j) w / rsumn n w) <= 6 * (INR n * uu).
Proof.
  intros J. pose proof nx as [X XU]. pose proof tot as TT. pose proof last_pos as LP.
  destruct (cum_bounds j J) as [L1 U1]. destruct (cum_bounds (n - 1) ltac:(lia)) as [L2 U2].
  replace (S (n - 1)) with n in L2, U2 by lia. destruct (prefix_le (S j) ltac:(lia)) as [P0 P1].
  unfold f_cdf. set (a := f_cumsum w j) in *. set (b := f_cumsum w (n - 1)) in *.
  set (x := INR n * uu) in *. set (p := rsumn (S j) w) in *. set (t := rsumn n w) in *. clearbody a b x p t.
  assert (Q : exists q, p = q * t /\ 0 <= q <= 1).
  { exists (p / t). split; [field; lra|]. split.
    - apply Rmult_le_pos; [lra|left; apply Rinv_0_lt_compat; lra].
    - apply (Rmult_le_reg_r t); [lra|]. unfold Rdiv. rewrite Rmult_assoc, Rinv_l by lra. lra. }
  destruct Q as (q & -> & Q0 & Q1). replace (q * t / t) with q by (field; lra).
  assert (QT : 0 <= q * t) by (apply Rmult_le_pos; lra).
  assert (AB1 : q * (1 - 4 * x) <= a / b).
  { apply (Rmult_le_reg_r b); [lra|]. unfold Rdiv. rewrite (Rmult_assoc a), Rinv_l, Rmult_1_r by lra.
    apply Rle_trans with (q * (1 - 4 * x) * ((1 + 2 * x) * t)).
    - apply Rmult_le_compat_l; [apply Rmult_le_pos; lra|exact U2].
    - eapply Rle_trans; [|exact L1].
      replace (q * (1 - 4 * x) * ((1 + 2 * x) * t)) with ((1 - 4 * x) * (1 + 2 * x) * (q * t)) by ring.
      apply Rmult_le_compat_r; [exact QT|]. nra. }
  assert (AB2 : a / b <= q * (1 + 4 * x)).
  { apply (Rmult_le_reg_r b); [lra|]. unfold Rdiv. rewrite (Rmult_assoc a), Rinv_l, Rmult_1_r by lra.
    eapply Rle_trans; [exact U1|]. apply Rle_trans with (q * (1 + 4 * x) * ((1 - x) * t)).
    - replace (q * (1 + 4 * x) * ((1 - x) * t)) with ((1 + 4 * x) * (1 - x) * (q * t)) by ring.
      apply Rmult_le_compat_r; [exact QT|]. nra.
    - apply Rmult_le_compat_l; [apply Rmult_le_pos; lra|exact L2]. }
  assert (AB0 : 0 <= a / b) by (eapply Rle_trans; [|exact AB1]; apply Rmult_le_pos; lra).
  pose proof (rnd_0_up _ AB0) as RU. pose proof (rnd_0_lo _ AB0) as RL.
  pose proof uu_pos as UP.
  assert (TU : tiny <= / 10 * uu).
  { apply Rle_trans with (bpow radix2 (-4) * uu); [|apply Rmult_le_compat_r; [lra|simpl; lra]].
    unfold tiny, uu. rewrite <- bpow_plus. apply bpow_le. lia. }
  assert (AB3 : a / b <= 11 / 10) by nra.
  assert (QX : 0 <= q * x <= x) by (split; nra).
  assert (AU : a / b * uu <= 11 / 10 * uu) by (apply Rmult_le_compat_r; lra).
  set (r := a / b) in *. clearbody r. apply Rabs_le. split; nra.
Qed.

Theorem choice_law j : (j < n)%nat -> exists lo hi, 
  (forall u, 0 <= u < 1 -> (f_choice n w u = Some j <-> lo <= u < hi)) /\ 0 <= lo <= hi /\ hi <= 1 /\
  Rabs ((hi - lo) - w j / rsumn n w) <= 12 * INR n * uu.
Proof.
  intros J. exists (match j with O => 0 | S i => f_cdf n w i end), (f_cdf n w j).
  split; [intros u U; now apply choice_iff|].
  assert (C0 : forall i, (i < n)%nat -> 0 <= f_cdf n w i).
  { intros i I. apply rnd_nonneg. apply Rmult_le_pos; [apply cum_dnn; exact I|left; apply Rinv_0_lt_compat, last_pos]. }
  split; [|split].
  - destruct j as [|i]; [split; [lra|now apply C0]|]. split; [apply C0; lia|apply cdf_mono; lia].
  - rewrite <- cdf_last. apply cdf_le; lia.
  - pose proof (cdf_near j J) as E. pose proof nx as [X XU]. pose proof tot as TT.
    replace (12 * INR n * uu) with (12 * (INR n * uu)) by ring. destruct j as [|i].
    + replace (w 0%nat) with (rsumn 1 w) by (unfold rsumn; cbn [seq map rsum]; ring).
      rewrite Rminus_0_r. lra.
    + pose proof (cdf_near i ltac:(lia)) as E'. rewrite (rsumn_S (S i)) in E.
      replace (f_cdf n w (S i) - f_cdf n w i - w (S i) / rsumn n w) with
        ((f_cdf n w (S i) - (rsumn (S i) w + w (S i)) / rsumn n w) + - (f_cdf n w i - rsumn (S i) w / rsumn n w))
        by (field; lra).
      eapply Rle_trans; [apply Rabs_triang|]. rewrite Rabs_Ropp. lra.
Qed.
End Choice.

(** ** walks *)
Theorem simulate_possible n p final us : (1 <= n)%nat -> INR n <= 1000000 ->
  (forall i, (i < n)%nat -> (forall j, (j < n)%nat -> is_double (p i j) /\ 0 <= p i j) /\ Rabs (rsumn n (p i) - 1) <= / 100000000) ->
  draws us -> forall cur, (cur < n)%nat -> exists r, f_simulate n p final cur us = Some r /\ possible_walk n p cur r /\
    ends final (length us) r.
Proof.
  intros N1 N P. induction us as [|u us IH]; intros DU cur C.
  - exists []. cbn. split; [reflexivity|]. split; [exact I|]. split; [apply le_n|]. destruct final; cbn; auto.
  - destruct (P cur C) as [D T].
    destruct (choice_possible n (p cur) N1 N D T u (DU u (or_introl eq_refl))) as (s & S1 & E & PS).
    cbn [f_simulate]. rewrite E.
    destruct (match final with Some f => Nat.eqb s f | None => false end) eqn:F.
    + exists [s]. split; [reflexivity|]. split; [cbn; auto|]. split; [cbn; lia|]. destruct final as [f|]; [|discriminate].
      apply Nat.eqb_eq in F. subst f. cbn. split; [auto|]. right. exists []. reflexivity.
    + destruct (IH (fun v I => DU v (or_intror I)) s S1) as (r & Er & W & L1 & L2). exists (s :: r). rewrite Er.
      split; [reflexivity|]. split; [cbn; auto|]. split; [cbn; lia|]. destruct final as [f|]; [|cbn; now rewrite L2].
      destruct L2 as [L2 L3]. apply Nat.eqb_neq in F. split.
      * destruct r as [|s' r]; [cbn; auto|]. change (removelast (s :: s' :: r)) with (s :: removelast (s' :: r)).
        intros [X|X]; [now apply F|now apply L2].
      * destruct L3 as [L3|(r' & ->)]; [left; cbn; now rewrite L3|right; exists (s :: r'); reflexivity].
Qed.

(** normalised rows sum to one accurately enough *)
Lemma shares_total sm n m i : summing sm -> (1 <= n)%nat -> INR n <= 1000000 ->
  (forall j, (j < n)%nat -> is_double (m i j) /\ 0 <= m i j) ->
  (forall j, (j < n)%nat -> is_double (f_shares sm n m i j) /\ 0 <= f_shares sm n m i j) /\
  Rabs (rsumn n (f_shares sm n m i) - 1) <= / 100000000.
Proof.
  intros S K N D. destruct (fill_row n m i) as [A P]; [lia|exact D|]. assert (N9 : INR n <= 1000000000) by lra.
  split.
  { intros j J. destruct (share_range sm n (f_fill n m i) S N9 A P j J) as (F & B & _). now split. }
  pose proof uu_pos as UP. pose proof tiny_uu as TU. pose proof tiny_pos as TP.
  assert (N1 : 1 <= INR n) by (apply (le_INR 1); exact K).
  assert (X : INR n * uu <= / 9000000000) by (rewrite uu_val; lra).
  assert (X0 : 0 <= INR n * uu) by (apply Rmult_le_pos; lra).
  pose proof (share_total n (f_fill n m i) A P) as ST.
  assert (SU : rsumn n (f_shares sm n m i) <= 1 + 5 * (INR n * uu)).
  { eapply Rle_trans; [apply (rsumn_le n _ (fun j => (1 + 4 * (INR n * uu)) * (f_fill n m i j / rsumn n (f_fill n m i)) + tiny)); intros j J;
      destruct (share_near sm n (f_fill n m i) S N9 A P j J) as [_ Q]; rewrite (Rmult_comm (1 + _)); exact Q|].
    rewrite rsumn_add, rsumn_const, rsumn_scal, ST. nra. }
  assert (SL : 1 - 5 * (INR n * uu) <= rsumn n (f_shares sm n m i)).
  { eapply Rle_trans; [|apply (rsumn_le n (fun j => (1 - 4 * (INR n * uu)) * (f_fill n m i j / rsumn n (f_fill n m i)) + - tiny)); intros j J;
      destruct (share_near sm n (f_fill n m i) S N9 A P j J) as [Q _]; rewrite (Rmult_comm (1 - _)); exact Q].
    rewrite rsumn_add, rsumn_const, rsumn_scal, ST. nra. }
  apply Rabs_le. lra.
Qed.

Theorem shares_simulated sm n m final us cur : summing sm -> (1 <= n)%nat -> INR n <= 1000000 ->
  (forall i j, (i < n)%nat -> (j < n)%nat -> is_double (m i j) /\ 0 <= m i j) -> draws us -> (cur < n)%nat ->
  exists r, f_simulate n (f_shares sm n m) final cur us = Some r /\ possible_walk n (f_shares sm n m) cur r /\
    ends final (length us) r.
Proof.
  intros S K N D DU C. apply simulate_possible; auto. intros i I. apply shares_total; auto.
Qed.
Theorem fit_simulated sm n k s final us cur : summing sm -> (1 <= n)%nat -> INR n <= 1000000 -> draws us -> (cur < n)%nat ->
  exists r, f_simulate n (f_fit sm n k s) final cur us = Some r /\ possible_walk n (f_fit sm n k s) cur r /\
    ends final (length us) r.
Proof. intros S K N DU C. apply shares_simulated; auto. intros i j _ _. apply smooth_dnn. Qed.

(** probabilities typed by the user, each rounded to the nearest double *)
Lemma typed_sum n (q : nat -> R) : (1 <= n)%nat -> INR n <= 1000000 -> (forall j, (j < n)%nat -> 0 <= q j) -> rsumn n q = 1 ->
  (forall j, (j < n)%nat -> is_double (rnd (q j)) /\ 0 <= rnd (q j)) /\
  Rabs (rsumn n (fun j => rnd (q j)) - 1) <= 2 * (INR n * uu).
Proof.
  intros K N Q T. split; [intros j J; split; [apply is_double_rnd|apply rnd_nonneg; auto]|].
  assert (N1 : 1 <= INR n) by (apply (le_INR 1); exact K).
  pose proof uu_pos as UP. pose proof tiny_uu as TU. pose proof tiny_pos as TP.
  assert (SU : rsumn n (fun j => rnd (q j)) <= 1 + uu + INR n * uu).
  { eapply Rle_trans; [apply (rsumn_le n _ (fun j => q j * (1 + uu) + tiny)); intros; apply rnd_0_up; auto|].
    rewrite rsumn_add, rsumn_const, (rsumn_ext n _ (fun j => (1 + uu) * q j)) by (intros; ring).
    rewrite rsumn_scal, T. nra. }
  assert (SL : 1 - uu - INR n * uu <= rsumn n (fun j => rnd (q j))).
  { eapply Rle_trans; [|apply (rsumn_le n (fun j => q j * (1 - uu) + - tiny)); intros i I; pose proof (rnd_0_lo (q i) (Q i I)); lra].
    rewrite rsumn_add, rsumn_const, (rsumn_ext n _ (fun j => (1 - uu) * q j)) by (intros; ring).
    rewrite rsumn_scal, T. nra. }
  apply Rabs_le. nra.
Qed.
Lemma small_total n : INR n <= 1000000 -> 2 * (INR n * uu) <= / 100000000.
Proof. intros N. pose proof uu_pos. rewrite uu_val. lra. Qed.

Theorem typed_simulated n q final us cur : (1 <= n)%nat -> INR n <= 1000000 -> stochasticR n q -> draws us -> (cur < n)%nat ->
  exists r, f_simulate n (fun i j => rnd (q i j)) final cur us = Some r /\ possible_walk n q cur r /\
    ends final (length us) r.
Proof.
  intros K N [Q T] DU C.
  destruct (simulate_possible n (fun i j => rnd (q i j)) final us K N) with (cur := cur) as (r & E & W & L); auto.
  - intros i I. destruct (typed_sum n (q i) K N (fun j => Q i j I) (T i I)) as [A B]. split; [exact A|].
    pose proof (small_total n N). lra.
  - exists r. split; [exact E|]. split; [|exact L]. clear E L us DU. revert cur C W.
    induction r as [|s r IH]; intros cur C W; [exact I|]. cbn [possible_walk] in *. destruct W as (A & B & W).
    split; [exact A|]. split; [|now apply IH].
    destruct (Q cur s C A) as [P|P]; [exact P|]. rewrite <- P, rnd_0 in B. lra.
Qed.

Theorem typed_law n q i j : (1 <= n)%nat -> INR n <= 1000000 -> stochasticR n q -> (i < n)%nat -> (j < n)%nat ->
  exists lo hi, (forall u, 0 <= u < 1 -> (f_choice n (fun j => rnd (q i j)) u = Some j <-> lo <= u < hi)) /\
    0 <= lo <= hi /\ hi <= 1 /\ Rabs ((hi - lo) - q i j) <= 17 * INR n * uu.
Proof.
  intros K N [Q T] I J. destruct (typed_sum n (q i) K N (fun j => Q i j I) (T i I)) as [A B].
  pose proof (small_total n N) as ST.
  assert (B' : Rabs (rsumn n (fun j => rnd (q i j)) - 1) <= / 100000000) by lra.
  destruct (choice_law n (fun j => rnd (q i j)) K N A B' j J) as (lo & hi & E & L & H & W).
  exists lo, hi. split; [exact E|]. split; [exact L|]. split; [exact H|].
  assert (N1 : 1 <= INR n) by (apply (le_INR 1); exact K).
  assert (P1 : q i j <= 1) by (rewrite <- (T i I); apply rsumn_in; auto).
  pose proof (Q i j I J) as P0. pose proof (rnd_0_up _ P0) as RU. pose proof (rnd_0_lo _ P0) as RL.
  pose proof uu_pos as UP. pose proof tiny_uu as TU. pose proof tiny_pos as TP.
  pose proof (rnd_le_1 _ P1) as R1. pose proof (rnd_nonneg _ P0) as R0.
  replace (12 * INR n * uu) with (12 * (INR n * uu)) in W by ring. replace (17 * INR n * uu) with (17 * (INR n * uu)) by ring.
  assert (XU : uu <= INR n * uu) by nra.
  set (t := rsumn n (fun j => rnd (q i j))) in *. set (v := rnd (q i j)) in *. set (x := INR n * uu) in *. set (p := q i j) in *.
  clearbody t v x p. apply Rabs_le_inv in B.
  assert (V : Rabs (v - p) <= 2 * x) by (apply Rabs_le; nra).
  assert (D : Rabs (v / t - v) <= 3 * x).
  { replace (v / t - v) with ((1 - t) * (v / t)) by (field; lra). rewrite Rabs_mult.
    assert (V0 : 0 <= v / t) by (apply Rmult_le_pos; [lra|left; apply Rinv_0_lt_compat; lra]).
    assert (V1 : v / t <= 3 / 2).
    { apply (Rmult_le_reg_r t); [lra|]. unfold Rdiv. rewrite Rmult_assoc, Rinv_l by lra. lra. }
    rewrite (Rabs_pos_eq (v / t)) by exact V0. apply Rle_trans with (2 * x * (3 / 2)); [|lra].
    apply Rmult_le_compat; [apply Rabs_pos|exact V0|apply Rabs_le; lra|exact V1]. }
  replace (hi - lo - p) with ((hi - lo - v / t) + ((v / t - v) + (v - p))) by ring.
  eapply Rle_trans; [apply Rabs_triang|]. pose proof (Rabs_triang (v / t - v) (v - p)). lra.
Qed.
