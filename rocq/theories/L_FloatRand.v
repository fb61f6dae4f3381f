(** L_FloatRand: random rows in doubles. *)
From Coq Require Import Reals Lra Lia List ZArith Bool.
From Flocq Require Import Core Relative.
From Verif Require Import Fl M_Float S_Float L_Float1 L_Float2 L_Float3 L_FloatNorm L_FloatRed L_FloatMoran L_FloatUrn L_FloatCanon.
From Verif Require Import M_FloatNorm M_FloatRand S_FloatRand.
Import ListNotations.
Local Open Scope R_scope.

Lemma rnd_below_mid x : x < 1 + uu -> rnd x <= 1.
Proof.
  intros H. apply round_N_le_midp; auto with typeclass_instances.
  - apply is_double_1.
  - rewrite succ_eq_pos by lra.
    assert (U : ulp radix2 fexp64 1 = / 4503599627370496)
      by (change 1 with (bpow radix2 0); rewrite ulp_bpow; reflexivity).
    rewrite U. pose proof uu_val. lra.
Qed.
Lemma rnd_rel x : / 1000000000000000000 <= x -> Rabs (rnd x - x) <= uu / (1 + uu) * x.
Proof.
  intros X. unfold rnd, fexp64. rewrite round_FLT_FLX.
  - pose proof (relative_error_N_FLX' radix2 53 prec53 (fun x => negb (Z.even x)) x) as E.
    assert (U : u_ro radix2 53 = uu) by (unfold u_ro, uu; simpl; lra). rewrite U in E.
    rewrite (Rabs_pos_eq x) in E by lra. exact E.
  - rewrite Rabs_pos_eq by lra. apply Rle_trans with (bpow radix2 (-60)); [apply bpow_le; lia|]. simpl. lra.
Qed.
Lemma pick_sum n sel v : rsum (f_pick n sel v) = total n sel v.
Proof.
  unfold f_pick, total, rsumn. induction (seq 0 n) as [|a l IH]; [reflexivity|]. cbn [filter map rsum].
  destruct (sel a); cbn [map rsum]; rewrite IH; lra.
Qed.
Lemma pick_length n sel v : (length (f_pick n sel v) <= n)%nat.
Proof. unfold f_pick. rewrite map_length. rewrite <- (seq_length n 0) at 2. apply filter_length_le'. Qed.
Lemma total_split n free v : total n free v + total n (fun j => negb (free j)) v = rsumn n v.
Proof. unfold total. rewrite <- rsumn_add. apply rsumn_ext. intros j _. destruct (free j); simpl; lra. Qed.

Section Row.
Variables (sm0 sm : list R -> R) (n : nat) (free : nat -> bool) (v : nat -> R).
Hypothesis S0 : summing sm0.
Hypothesis S1 : summing sm.
Hypothesis B : INR n <= 1000000000.
Hypothesis D : forall j, (j < n)%nat -> is_double (v j) /\ 0 <= v j <= 1.
Hypothesis G1 : f_given sm0 n free v <= 1.
Hypothesis G2 : ~ f_close1 (f_given sm0 n free v).
Hypothesis P : exists j, (j < n)%nat /\ free j = true /\ 0 < v j.
Let F := total n (fun j => negb (free j)) v.
Let T := total n free v.
Let s := sm (f_pick n free v).
Let si := sm (f_pick n (fun j => negb (free j)) v).

Lemma nu : 0 <= INR n * uu <= 12 / 100000000.
Proof.
  pose proof uu_val as UV. pose proof uu_pos as UP. pose proof (pos_INR n) as Np. clear - B UV UP Np.
  split; [apply Rmult_le_pos; lra|]. apply Rle_trans with (1000000000 * uu); [apply Rmult_le_compat_r; lra|rewrite UV; lra].
Qed.
Lemma lohi : 1 - 12 / 100000000 <= lo n /\ hi n <= 1 + 24 / 100000000.
Proof. pose proof nu as Q. pose proof (lo_ge n). pose proof (hi_le n ltac:(lra)). lra. Qed.
Lemma total_nonneg sel : 0 <= total n sel v.
Proof. apply rsumn_nonneg. intros j J. destruct (sel j); [apply D, J|lra]. Qed.
Lemma pick_dnn sel x : In x (f_pick n sel v) -> dnn x.
Proof. intros X. apply in_map_iff in X. destruct X as (j & <- & X). apply filter_In in X. destruct X as [X _]. apply in_seq in X. destruct (D j ltac:(lia)). split; [assumption|lra]. Qed.
Lemma pick_bounds sel : dnn (sm (f_pick n sel v)) /\
  (1 - 12 / 100000000) * total n sel v <= sm (f_pick n sel v) <= (1 + 24 / 100000000) * total n sel v.
Proof.
  destruct (fsum_bounds _ _ (S1 (f_pick n sel v)) (pick_dnn sel)) as [N [L U]]. rewrite pick_sum in L, U.
  pose proof (lo_anti _ _ (pick_length n sel v)) as A1. pose proof (hi_mono _ _ (pick_length n sel v)) as A2.
  pose proof lohi as [Q1 Q2]. pose proof (total_nonneg sel) as T0. split; [exact N|].
  split; [eapply Rle_trans; [|exact L]|eapply Rle_trans; [exact U|]]; apply Rmult_le_compat_r; lra.
Qed.
Lemma F_room : 0 <= F <= 1 - 96 / 10000000.
Proof.
  split; [apply total_nonneg|].
  destruct (row_bounds sm0 n (fun j => if free j then 0 else v j) S0) as [[F0 _] [L U]].
  { intros j J. destruct (free j); [split; [apply is_double_0|lra]|destruct (D j J); split; [assumption|lra]]. }
  assert (E : rsumn n (fun j => if free j then 0 else v j) = F) by (apply rsumn_ext; intros j _; destruct (free j); reflexivity).
  rewrite E in L. fold (f_given sm0 n free v) in *. set (g := f_given sm0 n free v) in *.
  assert (g < 1 - 99 / 10000000).
  { apply Rnot_le_lt. intros H. apply G2, close_in; [exact F0|]. apply Rabs_le. lra. }
  pose proof lohi as [Q1 _]. pose proof (total_nonneg (fun j => negb (free j))) as T0. fold F in T0.
  assert ((1 - 12 / 100000000) * F <= lo n * F) by (apply Rmult_le_compat_r; lra). lra.
Qed.
Lemma T_pos : 0 < T.
Proof.
  destruct P as (j & J & E & V). apply Rlt_le_trans with (v j); [exact V|].
  pose proof (rsumn_in n (fun j => if free j then v j else 0) j) as H. cbv beta in H. rewrite E in H. apply H; [|exact J].
  intros i I. destruct (free i); [apply D, I|lra].
Qed.
Lemma T_le : T <= 1000000000.
Proof.
  apply Rle_trans with (rsumn n (fun _ => 1)); [|rewrite rsumn_const; lra]. apply rsumn_le. intros j J. destruct (free j); [apply D, J|lra].
Qed.
Lemma s_pos : 0 < s.
Proof. destruct (pick_bounds free) as [_ [L _]]. fold s T in L. pose proof T_pos. lra. Qed.
Lemma s_ge j : (j < n)%nat -> free j = true -> v j <= s.
Proof.
  intros J E. apply (fsum_ge _ _ (S1 (f_pick n free v)) (pick_dnn free)). apply in_map, filter_In. split; [apply in_seq; lia|exact E].
Qed.
Let r := rnd (1 - si).
Let c := rnd (r / s).
Lemma r_near : Rabs (r - (1 - F)) <= 25 / 100000000 /\ 9 / 1000000 <= r <= 1.
Proof.
  destruct (pick_bounds (fun j => negb (free j))) as [[N0 N1] [L U]]. fold si F in N0, N1, L, U. pose proof F_room as R.
  assert (E : Rabs (r - (1 - si)) <= 1 / 100000000).
  { unfold r. replace (1 - si) with (1 + - si) by ring. eapply Rle_trans; [apply rnd_add; [apply is_double_1|apply generic_format_opp, N0]|].
    rewrite Rabs_pos_eq by lra. rewrite uu_val. lra. }
  apply Rabs_le_inv in E. split; [apply Rabs_le; lra|]. split; [lra|]. apply rnd_le_1. lra.
Qed.
Lemma c_near : Rabs (c * s - r) <= uu / (1 + uu) * r.
Proof.
  pose proof r_near as [_ R]. pose proof s_pos as SP. pose proof T_le as TL.
  destruct (pick_bounds free) as [_ [_ U]]. fold s T in U.
  assert (Q : / 1000000000000000000 <= r / s).
  { apply Rmult_le_reg_r with s; [exact SP|]. replace (r / s * s) with r by (field; lra). lra. }
  pose proof (rnd_rel _ Q) as E. fold c in E.
  replace (c * s - r) with ((c - r / s) * s) by (field; lra). rewrite Rabs_mult, (Rabs_pos_eq s) by lra.
  apply Rle_trans with (uu / (1 + uu) * (r / s) * s); [apply Rmult_le_compat_r; lra|]. right. field. pose proof uu_pos. lra.
Qed.
Lemma fill_free j : free j = true -> f_random_row sm n free v j = rnd (v j * c).
Proof. intros E. unfold f_random_row. fold s si. destruct (Rlt_dec 0 s) as [H|H]; [|destruct (H s_pos)]. rewrite E. reflexivity. Qed.
Theorem fill_kept j : free j = false -> f_random_row sm n free v j = v j.
Proof. intros E. unfold f_random_row. destruct (Rlt_dec _ _); [rewrite E|]; reflexivity. Qed.
Lemma small_u : 0 <= uu / (1 + uu) < uu /\ uu / (1 + uu) <= 1 / 1000000000000000.
Proof.
  rewrite uu_val. lra.
Qed.
Theorem fill_range j : (j < n)%nat -> is_double (f_random_row sm n free v j) /\ 0 <= f_random_row sm n free v j <= 1.
Proof.
  intros J. destruct (free j) eqn:E; [|rewrite fill_kept by exact E; apply D, J].
  rewrite fill_free by exact E. split; [apply is_double_rnd|].
  pose proof c_near as C. apply Rabs_le_inv in C. pose proof r_near as [_ R]. pose proof small_u as [U1 U2]. pose proof s_pos as SP. pose proof (s_ge j J E) as SG.
  destruct (D j J) as [_ V]. set (u := uu / (1 + uu)) in *. clearbody u.
  assert (UR : 0 <= u * r <= u) by (split; [apply Rmult_le_pos; lra|rewrite <- (Rmult_1_r u) at 2; apply Rmult_le_compat_l; lra]).
  assert (UR2 : u * r <= 1 / 1000000000000000) by lra.
  assert (C0 : 0 <= c) by (apply rnd_nonneg, Rlt_le, Rdiv_lt_0_compat; lra).
  split; [apply rnd_nonneg, Rmult_le_pos; lra|]. apply rnd_below_mid.
  apply Rle_lt_trans with (c * s); [rewrite Rmult_comm; apply Rmult_le_compat_l; lra|]. lra.
Qed.
Theorem fill_near j : (j < n)%nat -> free j = true ->
  Rabs (f_random_row sm n free v j - share n free v j) <= / 1000000 * (v j / T) + tiny.
Proof.
  intros J E. rewrite fill_free by exact E. unfold share. fold F T.
  pose proof c_near as C. apply Rabs_le_inv in C. pose proof r_near as [RN R]. apply Rabs_le_inv in RN. pose proof small_u as [U1 U2].
  pose proof s_pos as SP. pose proof T_pos as TP. destruct (pick_bounds free) as [_ [L U]]. fold s T in L, U. destruct (D j J) as [_ V].
  pose proof F_room as FR.
  set (u := uu / (1 + uu)) in *. clearbody u.
  assert (UR : 0 <= u * r <= 1 / 1000000000000000).
  { split; [apply Rmult_le_pos; lra|]. apply Rle_trans with (u * 1); [apply Rmult_le_compat_l; lra|lra]. }
  set (z := v j / T). assert (Z0 : 0 <= z) by (apply Rmult_le_pos; [lra|apply Rlt_le, Rinv_0_lt_compat; lra]).
  set (g := T / s). assert (GS : g * s = T) by (unfold g; field; lra).
  assert (G : 1 - 3 / 10000000 <= g <= 1 + 3 / 10000000) by (split; apply Rmult_le_reg_r with s; lra).
  set (k := c * s) in *.
  assert (X : v j * c = z * (g * k)) by (unfold z, g, k; field; lra).
  assert (C0 : 0 <= c) by (apply rnd_nonneg, Rlt_le, Rdiv_lt_0_compat; lra).
  assert (K : Rabs (g * k - (1 - F)) <= 6 / 10000000).
  { replace (g * k - (1 - F)) with ((g - 1) * k + (k - (1 - F))) by ring.
    assert (K0 : 0 <= k) by (unfold k; apply Rmult_le_pos; lra).
    eapply Rle_trans; [apply Rabs_triang|]. rewrite Rabs_mult, (Rabs_pos_eq k) by exact K0.
    assert (A1 : Rabs (g - 1) <= 3 / 10000000) by (apply Rabs_le; lra).
    assert (A2 : Rabs (k - (1 - F)) <= 26 / 100000000) by (apply Rabs_le; lra).
    assert (A3 : Rabs (g - 1) * k <= 3 / 10000000 * k) by (apply Rmult_le_compat_r; lra). lra. }
  pose proof (rnd_err (v j * c)) as RE. rewrite (Rabs_pos_eq (v j * c)) in RE by (apply Rmult_le_pos; lra).
  rewrite X in RE |- *. set (h := g * k) in *. clearbody z g h. clear - RE K Z0 FR.
  replace (rnd (z * h) - (1 - F) * z) with ((rnd (z * h) - z * h) + z * (h - (1 - F))) by ring.
  eapply Rle_trans; [apply Rabs_triang|]. rewrite (Rabs_mult z), (Rabs_pos_eq z) by exact Z0.
  assert (H : z * Rabs (h - (1 - F)) <= z * (6 / 10000000)) by (apply Rmult_le_compat_l; lra).
  apply Rabs_le_inv in K. assert (H2 : uu * (z * h) <= / 10000000 * z).
  { replace (uu * (z * h)) with ((uu * h) * z) by ring. apply Rmult_le_compat_r; [exact Z0|]. rewrite uu_val. lra. }
  lra.
Qed.
Theorem fill_total : Rabs (rsumn n (f_random_row sm n free v) - 1) <= 2 / 1000000.
Proof.
  pose proof T_pos as TP.
  assert (E : rsumn n (fun j => if free j then share n free v j else v j) = 1).
  { transitivity (rsumn n (fun j => (1 - F) / T * (if free j then v j else 0) + (if negb (free j) then v j else 0))).
    - apply rsumn_ext. intros j _. unfold share. fold F T. destruct (free j); simpl; field; lra.
    - rewrite rsumn_add, rsumn_scal. fold (total n free v) (total n (fun j => negb (free j)) v). fold F T. field. lra. }
  rewrite <- E. replace (rsumn n (f_random_row sm n free v) - rsumn n (fun j => if free j then share n free v j else v j))
    with (rsumn n (fun j => f_random_row sm n free v j + (-1) * (if free j then share n free v j else v j))) by (rewrite rsumn_add, rsumn_scal; ring).
  eapply Rle_trans; [apply rsumn_abs|].
  apply Rle_trans with (rsumn n (fun j => / 1000000 / T * (if free j then v j else 0) + tiny)).
  - apply rsumn_le. intros j J. pose proof tiny_pos as TY. destruct (free j) eqn:Q.
    + pose proof (fill_near j J Q) as H. replace (_ + -1 * _) with (f_random_row sm n free v j - share n free v j) by ring.
      eapply Rle_trans; [exact H|]. right. field. lra.
    + rewrite fill_kept by exact Q. replace (v j + -1 * v j) with 0 by ring. rewrite Rabs_R0. lra.
  - rewrite rsumn_add, rsumn_scal, rsumn_const. fold (total n free v). fold T.
    replace (/ 1000000 / T * T) with (/ 1000000) by (field; lra).
    pose proof tiny_uu as TU. pose proof tiny_pos as TY. pose proof nu as Q. pose proof (pos_INR n) as Np.
    assert (INR n * tiny <= INR n * uu) by (apply Rmult_le_compat_l; lra). lra.
Qed.
End Row.

Theorem rand_rows sm0 sm r k free (v : nat -> nat -> R) : summing sm0 -> summing sm -> (2 <= k)%nat -> INR k <= 1000000000 ->
  (forall i j, (i < r)%nat -> (j < k)%nat -> is_double (v i j) /\ 0 <= v i j <= 1) ->
  (forall i, (i < r)%nat ->
    (f_given sm0 k (free i) (v i) <= 1 /\ ~ f_close1 (f_given sm0 k (free i) (v i)) /\ exists j, (j < k)%nat /\ free i j = true /\ 0 < v i j) \/
    ((forall j, (j < k)%nat -> free i j = false) /\ Rabs (rsumn k (v i) - 1) <= 9 / 1000000)) ->
  forall sm', summing sm' -> f_accepts_emission sm' r k (fun i => f_random_row sm k (free i) (v i)).
Proof.
  intros S0 S1 N B D H sm' S'. split; [exact N|].
  assert (R : forall i j, (i < r)%nat -> (j < k)%nat -> is_double (f_random_row sm k (free i) (v i) j) /\ 0 <= f_random_row sm k (free i) (v i) j <= 1).
  { intros i j I J. destruct (H i I) as [(G1 & G2 & P)|(Z & _)].
    - apply (fill_range sm0 sm k (free i) (v i)); auto.
    - rewrite fill_kept by (apply Z, J). apply D; assumption. }
  split; [exact R|]. intros i I. apply row_close9; [exact S'|exact B|intros j J; apply R; assumption|].
  destruct (H i I) as [(G1 & G2 & P)|(Z & Q)].
  - eapply Rle_trans; [apply (fill_total sm0 sm k (free i) (v i)); auto|lra].
  - rewrite (rsumn_ext k _ (v i)); [exact Q|]. intros j J. apply fill_kept, Z, J.
Qed.
Theorem rand_accepted sm0 sm n free (v : nat -> nat -> R) : summing sm0 -> summing sm -> (2 <= n)%nat -> INR n <= 1000000000 ->
  (forall i j, (i < n)%nat -> (j < n)%nat -> is_double (v i j) /\ 0 <= v i j <= 1) ->
  (forall i, (i < n)%nat ->
    (f_given sm0 n (free i) (v i) <= 1 /\ ~ f_close1 (f_given sm0 n (free i) (v i)) /\ exists j, (j < n)%nat /\ free i j = true /\ 0 < v i j) \/
    ((forall j, (j < n)%nat -> free i j = false) /\ Rabs (rsumn n (v i) - 1) <= 9 / 1000000)) ->
  forall sm', summing sm' -> f_accepts sm' n (fun i => f_random_row sm n (free i) (v i)).
Proof. intros S0 S1 N B D H sm' S'. exact (rand_rows sm0 sm n n free v S0 S1 N B D H sm' S'). Qed.
