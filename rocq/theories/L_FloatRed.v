(** L_FloatRed: redistribution in doubles. *)
From Coq Require Import Reals Lra Lia List ZArith.
From Flocq Require Import Core.
From Verif Require Import Fl M_Float S_Float L_Float1 L_Float2 M_FloatNorm S_FloatNorm L_FloatNorm M_FloatSim L_FloatSim M_FloatRed S_FloatRed.
Import ListNotations.
Local Open Scope R_scope.

(** ** distances *)
Lemma dist_triang n f g h : dist n f h <= dist n f g + dist n g h.
Proof.
  unfold dist. rewrite <- rsumn_add. apply rsumn_le. intros j J.
  replace (f j - h j) with ((f j - g j) + (g j - h j)) by ring. apply Rabs_triang.
Qed.
Lemma rsumn_abs n f : Rabs (rsumn n f) <= rsumn n (fun j => Rabs (f j)).
Proof.
  unfold rsumn. induction (seq 0 n) as [|a l IH]; cbn [map rsum]; [rewrite Rabs_R0; lra|].
  eapply Rle_trans; [apply Rabs_triang|]. lra.
Qed.
Lemma rsumn_sub n f g : rsumn n (fun j => f j - g j) = rsumn n f - rsumn n g.
Proof.
  transitivity (rsumn n (fun j => f j + (-1) * g j)); [apply rsumn_ext; intros; ring|].
  rewrite rsumn_add, rsumn_scal. ring.
Qed.
Lemma dist_sum n f g : Rabs (rsumn n f - rsumn n g) <= dist n f g.
Proof. rewrite <- rsumn_sub. apply rsumn_abs. Qed.
Lemma dist_nonneg n f g : 0 <= dist n f g.
Proof. apply rsumn_nonneg. intros. apply Rabs_pos. Qed.

Definition vecmat (n : nat) (v : nat -> R) (q : nat -> nat -> R) (j : nat) : R := rsumn n (fun i => v i * q i j).
Lemma vecmat_total n v q : stochasticR n q -> rsumn n (vecmat n v q) = rsumn n v.
Proof.
  intros [_ T]. unfold vecmat. rewrite rsumn_swap. apply rsumn_ext. intros i I. rewrite rsumn_scal, (T i I). ring.
Qed.
Lemma vecmat_contract n v w q : stochasticR n q -> dist n (vecmat n v q) (vecmat n w q) <= dist n v w.
Proof.
  intros [Q T]. unfold dist at 1. 
  apply Rle_trans with (rsumn n (fun j => rsumn n (fun i => Rabs (v i - w i) * q i j))).
  - apply rsumn_le. intros j J. unfold vecmat. rewrite <- rsumn_sub. eapply Rle_trans; [apply rsumn_abs|].
    apply rsumn_le. intros i I. replace (v i * q i j - w i * q i j) with ((v i - w i) * q i j) by ring.
    rewrite Rabs_mult, (Rabs_pos_eq (q i j)) by auto. lra.
  - rewrite rsumn_swap. unfold dist. apply rsumn_le. intros i I. rewrite rsumn_scal, (T i I). lra.
Qed.

Lemma tiny_small : tiny <= uu / 100000000000000000000.
Proof.
  assert (B : bpow radix2 (-100) <= / 100000000000000000000) by (simpl; lra).
  apply Rle_trans with (bpow radix2 (-100) * uu); [unfold tiny, uu; rewrite <- bpow_plus; apply bpow_le; lia|].
  unfold Rdiv. rewrite Rmult_comm. apply Rmult_le_compat_l; [pose proof uu_pos; lra|exact B].
Qed.

Section Step.
Variables (sm : list R -> R) (dt : list (R * R) -> R) (n : nat) (p q : nat -> nat -> R).
Hypothesis Sm : summing sm.
Hypothesis Dt : dotting dt.
Hypothesis K : (1 <= n)%nat.
Hypothesis N : INR n <= 1000000.
Hypothesis Q : stochasticR n q.
Hypothesis P : forall i j, (i < n)%nat -> (j < n)%nat ->
  is_double (p i j) /\ 0 <= p i j /\ Rabs (p i j - q i j) <= 4 * INR n * uu * q i j + tiny.

Let x := INR n * uu.
Lemma x_small : 0 <= x <= / 9000000000 /\ uu <= x /\ INR n * tiny <= x / 10000000000 /\ INR n * (INR n * tiny) <= x / 10000000000.
Proof.
  unfold x. pose proof uu_pos. pose proof tiny_small. pose proof tiny_pos.
  assert (N1 : 1 <= INR n) by (apply (le_INR 1); exact K). repeat split.
  - apply Rmult_le_pos; lra.
  - rewrite uu_val. lra.
  - nra.
  - nra.
  - replace (INR n * uu / 10000000000) with (INR n * (uu / 10000000000)) by field.
    apply Rmult_le_compat_l; [lra|]. nra.
Qed.

Lemma vec_near v : (forall j, (j < n)%nat -> is_double (v j) /\ 0 <= v j) -> rsumn n v <= 101 / 100 ->
  dist n (f_vecmat dt n v p) (vecmat n v q) <= 7 * x.
Proof.
  intros V T. destruct x_small as (X & XU & T1 & T2). pose proof tiny_pos as TP.
  assert (N1 : 1 <= INR n) by (apply (le_INR 1); exact K).
  assert (V0 : 0 <= rsumn n v) by (apply rsumn_nonneg; intros; now apply V).
  assert (E1 : dist n (f_vecmat dt n v p) (vecmat n v p) <= 2 * x * rsumn n (vecmat n v p) + 2 * (INR n * (INR n * tiny))).
  { unfold dist.
    apply Rle_trans with (rsumn n (fun j => 2 * x * vecmat n v p j + 2 * (INR n * tiny)));
      [|rewrite rsumn_add, rsumn_scal, rsumn_const; lra].
    apply rsumn_le. intros j J. unfold f_vecmat. set (l := map _ _).
    assert (NN : forall ab, In ab l -> nnp ab).
    { intros ab I. apply in_map_iff in I. destruct I as (i & <- & I). apply in_seq in I. split; cbn [fst snd]; [apply V|apply P]; lia. }
    destruct (fdot_bounds l (dt l) (Dt l) NN) as [L U].
    assert (LL : length l = n) by (unfold l; now rewrite map_length, seq_length).
    assert (LS : rsum (prods l) = vecmat n v p j) by (unfold l, prods, vecmat, rsumn; now rewrite map_map).
    rewrite LL, LS in L, U. pose proof (prods_nonneg l NN) as S0. rewrite LS in S0.
    pose proof (lo_ge n) as Lo. fold x in Lo. pose proof (hi_le n ltac:(fold x; lra)) as H. fold x in H.
    set (s := vecmat n v p j) in *. set (y := dt l) in *. set (t := INR n * tiny) in *.
    assert (T0 : 0 <= t) by (unfold t; apply Rmult_le_pos; lra). clearbody s y t. apply Rabs_le. 
    assert (lo n * s >= (1 - x) * s) by (apply Rle_ge, Rmult_le_compat_r; lra).
    assert (hi n * (s + t) <= (1 + 2 * x) * (s + t)) by (apply Rmult_le_compat_r; lra).
    assert (0 <= x * s) by (apply Rmult_le_pos; lra).
    assert (x * t <= / 4 * t) by (apply Rmult_le_compat_r; lra).
    split; lra. }
  assert (E2 : dist n (vecmat n v p) (vecmat n v q) <= 4 * x * rsumn n v + rsumn n v * (INR n * tiny)).
  { unfold dist. apply Rle_trans with (rsumn n (fun j => 4 * x * vecmat n v q j + rsumn n v * tiny)).
    - apply rsumn_le. intros j J. unfold vecmat. rewrite <- rsumn_sub. eapply Rle_trans; [apply rsumn_abs|].
      apply Rle_trans with (rsumn n (fun i => 4 * x * (v i * q i j) + tiny * v i)).
      + apply rsumn_le. intros i I. replace (v i * p i j - v i * q i j) with (v i * (p i j - q i j)) by ring.
        destruct (V i I) as [_ Vi]. rewrite Rabs_mult, (Rabs_pos_eq (v i)) by exact Vi.
        destruct (P i j I J) as (_ & _ & D). replace (4 * INR n * uu) with (4 * x) in D by (unfold x; ring).
        apply Rle_trans with (v i * (4 * x * q i j + tiny)); [apply Rmult_le_compat_l; lra|lra].
      + rewrite rsumn_add, !rsumn_scal. lra.
    - rewrite rsumn_add, rsumn_scal, rsumn_const, (vecmat_total n v q Q). lra. }
  assert (E3 : rsumn n (vecmat n v p) <= 103 / 100).
  { pose proof (dist_sum n (vecmat n v p) (vecmat n v q)) as D. rewrite (vecmat_total n v q Q) in D.
    apply Rabs_le_inv in D. assert (rsumn n v * (INR n * tiny) <= 2 * (INR n * tiny)) by (apply Rmult_le_compat_r; [apply Rmult_le_pos; lra|lra]).
    assert (4 * x * rsumn n v <= 4 * x * 2) by (apply Rmult_le_compat_l; lra). lra. }
  assert (rsumn n v * (INR n * tiny) <= 2 * (INR n * tiny)) by (apply Rmult_le_compat_r; [apply Rmult_le_pos; lra|lra]).
  assert (4 * x * rsumn n v <= 4 * x * (101 / 100)) by (apply Rmult_le_compat_l; lra).
  assert (2 * x * rsumn n (vecmat n v p) <= 2 * x * (103 / 100)) by (apply Rmult_le_compat_l; lra).
  pose proof (dist_triang n (f_vecmat dt n v p) (vecmat n v p) (vecmat n v q)). lra.
Qed.

Lemma vec_double v : forall j, (j < n)%nat -> (forall j, (j < n)%nat -> is_double (v j) /\ 0 <= v j) -> dnn (f_vecmat dt n v p j).
Proof.
  intros j J V. split; [apply (fdot_double _ _ (Dt _))|]. apply (fdot_nonneg _ _ (Dt _)).
  intros ab I. apply in_map_iff in I. destruct I as (i & <- & I). apply in_seq in I. split; cbn [fst snd]; [apply V|apply P]; lia.
Qed.

Lemma step_ok v mu d : (forall j, (j < n)%nat -> is_double (v j) /\ 0 <= v j) -> Rabs (rsumn n v - 1) <= 5 * x ->
  dist n v mu <= d ->
  let y := f_vecmat dt n v p in let w := fun j => rnd (y j / sm (frow n y)) in
  (forall j, (j < n)%nat -> is_double (w j) /\ 0 <= w j) /\ Rabs (rsumn n w - 1) <= 5 * x /\ dist n w (vecmat n mu q) <= d + 24 * x.
Proof.
  intros V T D y w. destruct x_small as (X & XU & T1 & T2). pose proof T as T'. apply Rabs_le_inv in T'.
  pose proof (vec_near v V ltac:(lra)) as E. fold y in E.
  assert (Y : forall j, (j < n)%nat -> dnn (y j)) by (intros j J; now apply vec_double).
  pose proof (dist_sum n y (vecmat n v q)) as YT. rewrite (vecmat_total n v q Q) in YT.
  pose proof YT as YT'. apply Rabs_le_inv in YT'.
  assert (YP : 0 < rsumn n y) by lra.
  assert (PP : exists j, (j < n)%nat /\ 0 < y j).
  { destruct (Classical_Prop.classic (exists j, (j < n)%nat /\ 0 < y j)) as [H|H]; [exact H|exfalso].
    rewrite rsumn_zero in YP; [lra|]. intros j J. destruct (Y j J) as [_ [A|A]]; [|now symmetry]. exfalso. apply H. now exists j. }
  assert (N9 : INR n <= 1000000000) by lra.
  pose proof (share_total n y Y PP) as ST.
  assert (ND : dist n w (fun j => y j / rsumn n y) <= 4 * x + INR n * tiny).
  { unfold dist. apply Rle_trans with (rsumn n (fun j => 4 * x * (y j / rsumn n y) + tiny)).
    - apply rsumn_le. intros j J. pose proof (share_near sm n y Sm N9 Y PP j J) as [A B]. fold x in A, B. unfold w.
      apply Rabs_le. split; lra.
    - rewrite rsumn_add, rsumn_scal, rsumn_const, ST. lra. }
  split; [intros j J; destruct (share_range sm n y Sm N9 Y PP j J) as (A & B & _); now split|]. split.
  - pose proof (dist_sum n w (fun j => y j / rsumn n y)) as WT. rewrite ST in WT. lra.
  - assert (NY : dist n (fun j => y j / rsumn n y) y <= 12 * x).
    { unfold dist. apply Rle_trans with (rsumn n (fun j => Rabs (1 - rsumn n y) * (y j / rsumn n y))).
      - apply rsumn_le. intros j J. replace (y j / rsumn n y - y j) with ((1 - rsumn n y) * (y j / rsumn n y)) by (field; lra).
        rewrite Rabs_mult. apply Rmult_le_compat_l; [apply Rabs_pos|]. right. apply Rabs_pos_eq.
        apply Rmult_le_pos; [now apply Y|left; now apply Rinv_0_lt_compat].
      - rewrite rsumn_scal, ST, Rmult_1_r. apply Rabs_le. lra. }
    pose proof (dist_triang n w (fun j => y j / rsumn n y) (vecmat n mu q)) as D1.
    pose proof (dist_triang n (fun j => y j / rsumn n y) y (vecmat n mu q)) as D2.
    pose proof (dist_triang n y (vecmat n v q) (vecmat n mu q)) as D3.
    pose proof (vecmat_contract n v mu q Q) as D4. lra.
Qed.

Lemma redistribute_ok v mu k : (forall j, (j < n)%nat -> is_double (v j) /\ 0 <= v j) -> rsumn n mu = 1 -> dist n v mu <= 2 * x ->
  (forall j, (j < n)%nat -> is_double (f_redistribute sm dt n p v k j) /\ 0 <= f_redistribute sm dt n p v k j) /\
  Rabs (rsumn n (f_redistribute sm dt n p v k) - 1) <= 5 * x /\
  dist n (f_redistribute sm dt n p v k) (spread n q mu k) <= (24 * INR k + 2) * x.
Proof.
  intros V M D. pose proof x_small as (X & _). induction k as [|k IH].
  - cbn [f_redistribute spread INR]. split; [exact V|]. split; [|lra].
    pose proof (dist_sum n v mu) as H. rewrite M in H. lra.
  - destruct IH as (A & B & C). destruct (step_ok _ _ _ A B C) as (A' & B' & C'). cbn zeta in A', B', C'.
    cbn [f_redistribute spread]. split; [exact A'|]. split; [exact B'|]. rewrite S_INR. unfold vecmat in C'. lra.
Qed.
End Step.

Lemma typed_dist n mu : (1 <= n)%nat -> distributionR n mu -> dist n (fun j => rnd (mu j)) mu <= 2 * (INR n * uu).
Proof.
  intros K [M T]. pose proof uu_pos as UP. pose proof tiny_uu as TU. pose proof tiny_pos as TP.
  assert (N1 : 1 <= INR n) by (apply (le_INR 1); exact K).
  unfold dist. apply Rle_trans with (rsumn n (fun j => uu * mu j + tiny)).
  - apply rsumn_le. intros j J. pose proof (rnd_0_up _ (M j J)). pose proof (rnd_0_lo _ (M j J)). apply Rabs_le. lra.
  - rewrite rsumn_add, rsumn_scal, rsumn_const, T. nra.
Qed.

Theorem typed_redistributed sm dt n q mu k : summing sm -> dotting dt -> (1 <= n)%nat -> INR n <= 1000000 -> stochasticR n q ->
  distributionR n mu ->
  let v := f_redistribute sm dt n (fun i j => rnd (q i j)) (fun j => rnd (mu j)) k in
  (forall j, (j < n)%nat -> is_double (v j) /\ 0 <= v j <= 1) /\ Rabs (rsumn n v - 1) <= 5 * INR n * uu /\
  dist n v (spread n q mu k) <= (24 * INR k + 2) * INR n * uu.
Proof.
  intros S D K N Q M v. pose proof M as [M0 M1].
  assert (N1 : 1 <= INR n) by (apply (le_INR 1); exact K). pose proof uu_pos as UP.
  assert (P : forall i j, (i < n)%nat -> (j < n)%nat -> is_double (rnd (q i j)) /\ 0 <= rnd (q i j) /\
    Rabs (rnd (q i j) - q i j) <= 4 * INR n * uu * q i j + tiny).
  { intros i j I J. pose proof (proj1 Q i j I J) as Q0. split; [apply is_double_rnd|]. split; [now apply rnd_nonneg|].
    pose proof (rnd_0_up _ Q0). pose proof (rnd_0_lo _ Q0).
    assert (uu * q i j <= 4 * INR n * uu * q i j) by (apply Rmult_le_compat_r; [exact Q0|nra]). apply Rabs_le. lra. }
  assert (V : forall j, (j < n)%nat -> is_double (rnd (mu j)) /\ 0 <= rnd (mu j)) by (intros j J; split; [apply is_double_rnd|apply rnd_nonneg; auto]).
  destruct (redistribute_ok sm dt n _ q S D K N Q P (fun j => rnd (mu j)) mu k V M1 (typed_dist n mu K M)) as (A & B & C).
  fold v in A, B, C. split; [|split].
  - intros j J. destruct (A j J) as [F G]. split; [exact F|]. split; [exact G|]. unfold v. destruct k as [|k].
    + cbn [f_redistribute]. apply rnd_le_1. rewrite <- M1. apply rsumn_in; auto.
    + destruct (redistribute_ok sm dt n _ q S D K N Q P (fun j => rnd (mu j)) mu k V M1 (typed_dist n mu K M)) as (A' & B' & _).
      cbn [f_redistribute]. set (y := f_vecmat _ _ _ _).
      assert (Y : forall j, (j < n)%nat -> dnn (y j)) by (intros i I; apply (vec_double dt n _ q D K P); auto).
      destruct (Y j J) as [_ Y0]. pose proof (row_ge sm n y j S Y J) as RG. rewrite <- rnd_1. apply rnd_le.
      destruct Y0 as [Y0|Y0].
      * apply (Rmult_le_reg_r (sm (frow n y))); [lra|]. unfold Rdiv. rewrite Rmult_assoc, Rinv_l by lra. lra.
      * rewrite <- Y0. unfold Rdiv. rewrite Rmult_0_l. lra.
  - replace (5 * INR n * uu) with (5 * (INR n * uu)) by ring. exact B.
  - replace ((24 * INR k + 2) * INR n * uu) with ((24 * INR k + 2) * (INR n * uu)) by ring. exact C.
Qed.

Theorem weights_redistributed sm sm' dt n m q mu k : summing sm -> summing sm' -> dotting dt -> (1 <= n)%nat -> INR n <= 1000000 ->
  (forall i j, (i < n)%nat -> (j < n)%nat -> is_double (m i j) /\ 0 <= m i j) -> stochasticR n q ->
  (forall i j, (i < n)%nat -> (j < n)%nat -> is_share n (m i) j (q i j)) -> distributionR n mu ->
  let v := f_redistribute sm dt n (f_shares sm' n m) (fun j => rnd (mu j)) k in
  (forall j, (j < n)%nat -> is_double (v j) /\ 0 <= v j) /\ Rabs (rsumn n v - 1) <= 5 * INR n * uu /\
  dist n v (spread n q mu k) <= (24 * INR k + 2) * INR n * uu.
Proof.
  intros S S' D K N W Q H M v. pose proof M as [M0 M1].
  assert (P : forall i j, (i < n)%nat -> (j < n)%nat -> is_double (f_shares sm' n m i j) /\ 0 <= f_shares sm' n m i j /\
    Rabs (f_shares sm' n m i j - q i j) <= 4 * INR n * uu * q i j + tiny).
  { intros i j I J. destruct (fill_row n m i) as [A B]; [lia|intros l L; now apply W|].
    destruct (share_range sm' n (f_fill n m i) S' ltac:(lra) A B j J) as (F & G & _). split; [exact F|]. split; [exact G|].
    apply shares_accurate; auto. lra. }
  assert (V : forall j, (j < n)%nat -> is_double (rnd (mu j)) /\ 0 <= rnd (mu j)) by (intros j J; split; [apply is_double_rnd|apply rnd_nonneg; auto]).
  destruct (redistribute_ok sm dt n _ q S D K N Q P (fun j => rnd (mu j)) mu k V M1 (typed_dist n mu K M)) as (A & B & C).
  fold v in A, B, C. split; [exact A|]. split.
  - replace (5 * INR n * uu) with (5 * (INR n * uu)) by ring. exact B.
  - replace ((24 * INR k + 2) * INR n * uu) with ((24 * INR k + 2) * (INR n * uu)) by ring. exact C.
Qed.

Theorem redistributions_listed sm dt n p v steps : 
  f_redistributions sm dt n p v steps true = [f_redistribute sm dt n p v steps] /\
  length (f_redistributions sm dt n p v steps false) = (steps + 1)%nat /\
  (forall k, (k <= steps)%nat -> nth_error (f_redistributions sm dt n p v steps false) k = Some (f_redistribute sm dt n p v k)).
Proof.
  split; [reflexivity|]. unfold f_redistributions. rewrite map_length, seq_length. split; [reflexivity|].
  intros k L. apply map_nth_error. rewrite (nth_error_nth' _ 0%nat) by (rewrite seq_length; lia). f_equal. rewrite seq_nth; lia.
Qed.
