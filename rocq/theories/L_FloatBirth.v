(** L_FloatBirth: birth and death chains in doubles. *)
From Coq Require Import Reals Lra Lia List ZArith Bool.
From Flocq Require Import Core.
From Verif Require Import Fl M_Float S_Float L_Float1 L_Float2 L_Float3 M_FloatNorm S_FloatNorm L_FloatNorm L_FloatRed M_FloatBirth S_FloatBirth.
Import ListNotations.
Local Open Scope R_scope.

Lemma eps_bounds : 9999 / 1000000000000 <= f_eps <= 10001 / 1000000000000.
Proof.
  unfold f_eps. pose proof (rnd_0_up (1 / 100000000) ltac:(lra)). pose proof (rnd_0_lo (1 / 100000000) ltac:(lra)).
  pose proof uu_pos. pose proof tiny_small. assert (uu <= / 1000000000000000) by (rewrite uu_val; lra). lra.
Qed.
Lemma snap_near x : Rabs (f_snap x - x) <= f_eps.
Proof.
  unfold f_snap. destruct (Rle_dec (Rabs x) f_eps) as [L|L].
  - replace (0 - x) with (- x) by ring. now rewrite Rabs_Ropp.
  - replace (x - x) with 0 by ring. rewrite Rabs_R0. pose proof eps_bounds. lra.
Qed.
Lemma snap_0 : f_snap 0 = 0.
Proof. unfold f_snap. destruct (Rle_dec (Rabs 0) f_eps); reflexivity. Qed.
Lemma snap_double x : is_double x -> is_double (f_snap x).
Proof. intros D. unfold f_snap. destruct (Rle_dec (Rabs x) f_eps); [apply is_double_0|exact D]. Qed.
Lemma snap_nonneg x : - (1 / 1000000000) <= x -> 0 <= f_snap x.
Proof.
  intros H. unfold f_snap. destruct (Rle_dec (Rabs x) f_eps) as [L|L]; [lra|]. destruct (Rle_lt_dec 0 x) as [P|P]; [exact P|].
  exfalso. apply L. rewrite Rabs_left by exact P. pose proof eps_bounds. lra.
Qed.
Lemma snap_keeps x : 10001 / 1000000000000 < x -> f_snap x = x.
Proof.
  intros H. unfold f_snap. destruct (Rle_dec (Rabs x) f_eps) as [L|L]; [|reflexivity].
  rewrite Rabs_pos_eq in L by lra. pose proof eps_bounds. lra.
Qed.

Section Birth.
Variables (n : nat) (a b : nat -> R).
Hypothesis N2 : (2 <= n)%nat.
Hypothesis V : f_bd_valid n a b.

Lemma stay_near i : (i < n)%nat -> Rabs (f_stay a b i - (1 - a i - b i)) <= 3 * uu /\ - (3 * uu) <= f_stay a b i.
Proof.
  intros I. destruct V as (A & B & _ & _ & C). destruct (A i I) as [Da Ra]. destruct (B i I) as [Db Rb]. specialize (C i I).
  pose proof (rnd_add (b i) (a i) Db Da) as E0. rewrite (Rabs_pos_eq (b i + a i)) in E0 by lra.
  pose proof (rnd_add 1 (- b i) is_double_1 (is_double_opp _ Db)) as E1. change (1 + - b i) with (1 - b i) in E1.
  rewrite (Rabs_pos_eq (1 - b i)) in E1 by lra.
  pose proof (rnd_add (rnd (1 - b i)) (- a i) (is_double_rnd _) (is_double_opp _ Da)) as E2.
  change (rnd (1 - b i) + - a i) with (rnd (1 - b i) - a i) in E2. fold (f_stay a b i) in E2.
  pose proof uu_pos as UP. assert (UV : uu <= / 1000000000000000) by (rewrite uu_val; lra).
  set (s := rnd (b i + a i)) in *. set (t := rnd (1 - b i)) in *. set (z := f_stay a b i) in *. clearbody s t z.
  set (al := a i) in *. set (be := b i) in *. clearbody al be.
  apply Rabs_le_inv in E0. apply Rabs_le_inv in E1.
  assert (S1 : be + al <= 1 + 3 / 2 * uu) by nra.
  assert (U1 : uu * (1 - be) <= uu) by nra.
  assert (W : Rabs (t - al) <= 1 + 3 * uu) by (apply Rabs_le; lra).
  assert (W2 : uu * Rabs (t - al) <= uu * (1 + 3 * uu)) by (apply Rmult_le_compat_l; lra).
  assert (W3 : uu * (1 + 3 * uu) <= 11 / 10 * uu) by nra.
  split.
  - apply Rabs_le. apply Rabs_le_inv in E2. lra.
  - (* the residue is at least -3 uu *)
    assert (T0 : t - al >= - (5 / 2 * uu)) by lra.
    destruct (Rle_lt_dec 0 (t - al)) as [P|P].
    + apply Rabs_le_inv in E2. rewrite (Rabs_pos_eq (t - al)) in E2 by exact P. nra.
    + rewrite (Rabs_left (t - al)) in E2 by exact P. apply Rabs_le_inv in E2. nra.
Qed.

Definition bd_part (i j : nat) : R :=
  (if Nat.eqb j i then f_snap (f_stay a b i) else 0) + (if Nat.eqb j (S i) then f_snap (a i) else 0) + (if Nat.eqb i (S j) then f_snap (b i) else 0).
Lemma snapped_parts i j : (i < n)%nat -> f_snap (f_bd_sum a b i j) = bd_part i j.
Proof.
  intros I. destruct V as (A & B & _). destruct (A i I) as [Da _]. destruct (B i I) as [Db _].
  assert (Ds : is_double (f_stay a b i)) by apply is_double_rnd.
  unfold f_bd_sum, bd_part. destruct (Nat.eqb_spec j i) as [N1|N1]; destruct (Nat.eqb_spec j (S i)) as [N3|N3];
    destruct (Nat.eqb_spec i (S j)) as [N4|N4]; try lia; rewrite ?Rplus_0_r, ?Rplus_0_l, ?(rnd_id _ Ds), ?(rnd_id _ Da), ?rnd_0;
    rewrite ?Rplus_0_r, ?Rplus_0_l, ?(rnd_id _ Ds), ?(rnd_id _ Da), ?(rnd_id _ Db), ?rnd_0, ?snap_0; reflexivity.
Qed.
Lemma part_dnn i j : (i < n)%nat -> is_double (f_snap (f_bd_sum a b i j)) /\ 0 <= f_snap (f_bd_sum a b i j).
Proof.
  intros I. split; [apply snap_double, is_double_rnd|]. rewrite snapped_parts by exact I.
  destruct V as (A & B & _). destruct (A i I) as [_ Ra]. destruct (B i I) as [_ Rb]. destruct (stay_near i I) as [_ L].
  assert (UV : uu <= / 1000000000000000) by (rewrite uu_val; lra).
  pose proof (snap_nonneg (f_stay a b i) ltac:(lra)). pose proof (snap_nonneg (a i) ltac:(lra)). pose proof (snap_nonneg (b i) ltac:(lra)).
  unfold bd_part. destruct (Nat.eqb j i), (Nat.eqb j (S i)), (Nat.eqb i (S j)); lra.
Qed.

Lemma rsumn_single m c v : rsumn m (fun j => if Nat.eqb j c then v else 0) = if Nat.ltb c m then v else 0.
Proof.
  unfold rsumn. induction m as [|m IH]; [reflexivity|]. rewrite seq_S, map_app, rsum_app, IH. cbn [plus map rsum].
  destruct (Nat.ltb_spec c m), (Nat.ltb_spec c (S m)), (Nat.eqb_spec m c); try lia; lra.
Qed.
Lemma rsumn_pred m c v : (c < m)%nat -> rsumn m (fun j => if Nat.eqb c (S j) then v else 0) = if Nat.eqb c 0 then 0 else v.
Proof.
  intros C. destruct c as [|c].
  - rewrite rsumn_zero; [reflexivity|]. intros j _. reflexivity.
  - rewrite (rsumn_ext m _ (fun j => if Nat.eqb j c then v else 0)).
    + rewrite rsumn_single. destruct (Nat.ltb_spec c m); [reflexivity|lia].
    + intros j _. cbn [Nat.eqb]. now rewrite Nat.eqb_sym.
Qed.
Lemma row_total i : (i < n)%nat -> Rabs (rsumn n (fun j => f_snap (f_bd_sum a b i j)) - 1) <= 5 / 100000000.
Proof.
  intros I. rewrite (rsumn_ext n _ (bd_part i)) by (intros j _; now apply snapped_parts). unfold bd_part.
  rewrite !rsumn_add, !rsumn_single, rsumn_pred by exact I.
  destruct (Nat.ltb_spec i n) as [_|]; [|lia].
  destruct V as (A & B & B0 & A0 & _). destruct (stay_near i I) as [L _]. pose proof eps_bounds as EB.
  assert (UV : uu <= / 1000000000000000) by (rewrite uu_val; lra).
  pose proof (snap_near (f_stay a b i)) as E1. pose proof (snap_near (a i)) as E2. pose proof (snap_near (b i)) as E3.
  apply Rabs_le_inv in E1. apply Rabs_le_inv in E2. apply Rabs_le_inv in E3. apply Rabs_le_inv in L.
  assert (XA : - f_eps <= (if Nat.ltb (S i) n then f_snap (a i) else 0) - a i <= f_eps).
  { destruct (Nat.ltb_spec (S i) n) as [_|G]; [lra|]. replace i with (n - 1)%nat by lia. apply Rabs_le_inv in A0. lra. }
  assert (XB : - f_eps <= (if Nat.eqb i 0 then 0 else f_snap (b i)) - b i <= f_eps).
  { destruct (Nat.eqb_spec i 0) as [->|G]; [apply Rabs_le_inv in B0; lra|lra]. }
  apply Rabs_le. lra.
Qed.
Lemma part_near i j : (i < n)%nat -> (j < n)%nat -> Rabs (f_snap (f_bd_sum a b i j) - birth_deathR a b i j) <= 11 / 1000000000.
Proof.
  intros I J. rewrite snapped_parts by exact I. unfold bd_part, birth_deathR. destruct (stay_near i I) as [L _]. pose proof eps_bounds as EB.
  assert (UV : uu <= / 1000000000000000) by (rewrite uu_val; lra).
  pose proof (snap_near (f_stay a b i)) as E1. pose proof (snap_near (a i)) as E2. pose proof (snap_near (b i)) as E3.
  apply Rabs_le_inv in E1. apply Rabs_le_inv in E2. apply Rabs_le_inv in E3. apply Rabs_le_inv in L. apply Rabs_le.
  destruct (Nat.eqb_spec j i) as [N1|N1]; destruct (Nat.eqb_spec j (S i)) as [N3|N3]; destruct (Nat.eqb_spec i (S j)) as [N4|N4]; try lia; try lra.
Qed.
End Birth.

Theorem birth_death_accepted sm sm' n a b : summing sm -> summing sm' -> (2 <= n)%nat -> INR n <= 1000000000 -> f_bd_valid n a b ->
  f_accepts sm' n (f_birth_death sm n a b).
Proof.
  intros S1 S2 N2 N V. apply shares_accepted; auto. intros i j I _. exact (part_dnn n a b N2 V i j I).
Qed.

Lemma share_of sm n a b i j : summing sm -> (2 <= n)%nat -> INR n <= 1000000 -> f_bd_valid n a b -> (i < n)%nat -> (j < n)%nat ->
  let w := fun j => f_snap (f_bd_sum a b i j) in
  Rabs (f_birth_death sm n a b i j - w j / rsumn n w) <= 4 * INR n * uu * (w j / rsumn n w) + tiny /\ 0 <= w j /\ w j <= rsumn n w.
Proof.
  intros S1 N2 N V I J w. pose proof (row_total n a b N2 V i I) as T. fold w in T. apply Rabs_le_inv in T.
  assert (P : forall j, (j < n)%nat -> is_double (w j) /\ 0 <= w j) by (intros l _; exact (part_dnn n a b N2 V i l I)).
  split; [|split; [apply (P j J)|apply rsumn_in; [intros l L; apply (P l L)|exact J]]].
  apply (shares_accurate sm n (fun i j => f_snap (f_bd_sum a b i j)) i j (w j / rsumn n w)); [exact S1|lra|exact P|exact J|].
  right. split; [|change (w j / rsumn n w * rsumn n w = w j); field; lra].
  apply (rsumn_pos_ex n w); [intros l L; apply (P l L)|lra].
Qed.
Theorem birth_death_near sm n a b i j : summing sm -> (2 <= n)%nat -> INR n <= 1000000 -> f_bd_valid n a b -> (i < n)%nat -> (j < n)%nat ->
  Rabs (f_birth_death sm n a b i j - birth_deathR a b i j) <= 1 / 10000000.
Proof.
  intros S1 N2 N V I J. destruct (share_of sm n a b i j S1 N2 N V I J) as (E & W0 & W1).
  pose proof (row_total n a b N2 V i I) as T. pose proof (part_near n a b N2 V i j I J) as D. cbv zeta in E, W0, W1. cbn beta in E, W0, W1.
  set (w := f_snap (f_bd_sum a b i j)) in *. set (t := rsumn n _) in *. set (z := f_birth_death sm n a b i j) in *. clearbody w t z.
  apply Rabs_le_inv in T. pose proof uu_pos as UP. pose proof tiny_small as TS. pose proof tiny_pos.
  assert (UV : uu <= / 1000000000000000) by (rewrite uu_val; lra).
  assert (H0 : 0 <= w / t) by (apply Rmult_le_pos; [lra|left; apply Rinv_0_lt_compat; lra]).
  assert (H1 : w / t <= 1) by (apply (Rmult_le_reg_r t); [lra|]; unfold Rdiv; rewrite Rmult_assoc, Rinv_l by lra; lra).
  assert (X : 4 * INR n * uu <= 1 / 100000000).
  { pose proof (pos_INR n). apply Rle_trans with (4 * 1000000 * / 1000000000000000); [apply Rmult_le_compat; lra|lra]. }
  assert (X2 : 4 * INR n * uu * (w / t) <= 1 / 100000000).
  { apply Rle_trans with (1 / 100000000 * (w / t)); [apply Rmult_le_compat_r; lra|]. lra. }
  assert (DD : Rabs (w / t - w) <= 5 / 100000000).
  { replace (w / t - w) with ((1 - t) * (w / t)) by (field; lra). rewrite Rabs_mult, (Rabs_pos_eq (w / t)) by exact H0.
    apply Rle_trans with (5 / 100000000 * 1); [|lra]. apply Rmult_le_compat; [apply Rabs_pos|exact H0|apply Rabs_le; lra|exact H1]. }
  replace (z - birth_deathR a b i j) with ((z - w / t) + ((w / t - w) + (w - birth_deathR a b i j))) by ring.
  pose proof (Rabs_triang (z - w / t) ((w / t - w) + (w - birth_deathR a b i j))).
  pose proof (Rabs_triang (w / t - w) (w - birth_deathR a b i j)). lra.
Qed.
Theorem birth_death_moves sm n a b i j : summing sm -> (2 <= n)%nat -> INR n <= 1000000 -> f_bd_valid n a b -> (i < n)%nat -> (j < n)%nat ->
  (birth_deathR a b i j = 0 -> f_birth_death sm n a b i j = 0) /\ (2 / 100000000 <= birth_deathR a b i j -> 0 < f_birth_death sm n a b i j).
Proof.
  intros S1 N2 N V I J. destruct (share_of sm n a b i j S1 N2 N V I J) as (E & W0 & W1).
  pose proof (row_total n a b N2 V i I) as T. pose proof (part_near n a b N2 V i j I J) as D. cbv zeta in E, W0, W1. cbn beta in E, W0, W1.
  assert (UV : uu <= / 1000000000000000) by (rewrite uu_val; lra). pose proof eps_bounds as EB.
  split; intros H.
  - assert (Z : f_snap (f_bd_sum a b i j) = 0).
    { rewrite (snapped_parts n a b N2 V i j I). unfold bd_part. unfold birth_deathR in H. destruct (stay_near n a b V i I) as [L _].
      destruct (Nat.eqb_spec j i) as [N1|N1]; destruct (Nat.eqb_spec j (S i)) as [N3|N3]; destruct (Nat.eqb_spec i (S j)) as [N4|N4]; try lia;
        rewrite ?Rplus_0_l, ?Rplus_0_r; try (rewrite H; exact snap_0); try reflexivity.
      rewrite H in L. unfold f_snap. destruct (Rle_dec (Rabs (f_stay a b i)) f_eps) as [_|G]; [reflexivity|].
      exfalso. apply G. rewrite Rminus_0_r in L. lra. }
    unfold f_birth_death, f_shares, f_normalize, f_fill.
    destruct (f_blank n (fun j => f_snap (f_bd_sum a b i j))) eqn:Y.
    + exfalso. apply Rabs_le_inv in T. rewrite (rsumn_zero n) in T; [lra|]. intros l L. exact (proj1 (blank_spec n _) Y l L).
    + rewrite Z. unfold Rdiv. now rewrite Rmult_0_l, rnd_0.
  - set (w := f_snap (f_bd_sum a b i j)) in *. set (t := rsumn n _) in *. set (z := f_birth_death sm n a b i j) in *. clearbody w t z.
    apply Rabs_le_inv in T. apply Rabs_le_inv in D. pose proof uu_pos as UP. pose proof tiny_small as TS. pose proof tiny_pos.
    assert (W8 : 8 / 1000000000 <= w) by lra.
    assert (W7 : 7 / 1000000000 <= w / t).
    { apply (Rmult_le_reg_r t); [lra|]. unfold Rdiv at 2. rewrite Rmult_assoc, Rinv_l by lra. lra. }
    assert (X : 4 * INR n * uu <= 1 / 100000000).
    { pose proof (pos_INR n). apply Rle_trans with (4 * 1000000 * / 1000000000000000); [apply Rmult_le_compat; lra|lra]. }
    assert (X2 : 4 * INR n * uu * (w / t) <= 1 / 100000000 * (w / t)) by (apply Rmult_le_compat_r; lra).
    apply Rabs_le_inv in E. lra.
Qed.

(** ** a lost birth *)
Definition rare : nat -> R := fun i => match i with O => / 1073741824 | _ => 0 end.
Definition deaths : nat -> R := fun i => match i with O => 0 | _ => 1 / 2 end.
Lemma double_pow e : (-1074 <= e)%Z -> is_double (bpow radix2 e).
Proof. intros E. apply generic_format_bpow. unfold fexp64, FLT_exp. lia. Qed.
Lemma rare_valid : f_bd_valid 2 rare deaths.
Proof.
  pose proof eps_bounds as EB.
  assert (D1 : is_double (/ 1073741824)) by (change (/ 1073741824) with (bpow radix2 (-30)); apply double_pow; lia).
  assert (D2 : is_double (1 / 2)) by (replace (1 / 2) with (bpow radix2 (-1)) by (simpl; lra); apply double_pow; lia).
  split; [|split; [|split; [|split]]].
  - intros [|i] _; cbn [rare]; [split; [exact D1|lra]|split; [exact is_double_0|lra]].
  - intros [|i] _; cbn [deaths]; [split; [exact is_double_0|lra]|split; [exact D2|lra]].
  - unfold f_zeroish. cbn [deaths]. rewrite Rabs_R0. lra.
  - unfold f_zeroish. cbn. rewrite Rabs_R0. lra.
  - intros [|i] _; cbn [rare deaths]; apply rnd_le_1; lra.
Qed.
Theorem lost_birth sm : summing sm -> f_bd_valid 2 rare deaths /\ 0 < birth_deathR rare deaths 0 1 /\ f_birth_death sm 2 rare deaths 0%nat 1%nat = 0.
Proof.
  intros S1. split; [exact rare_valid|]. split; [unfold birth_deathR; cbn; lra|].
  pose proof (row_total 2 rare deaths ltac:(lia) rare_valid 0 ltac:(lia)) as T. apply Rabs_le_inv in T.
  unfold f_birth_death, f_shares, f_normalize, f_fill.
  destruct (f_blank 2 (fun j => f_snap (f_bd_sum rare deaths 0%nat j))) eqn:Y.
  - exfalso. rewrite (rsumn_zero 2) in T; [lra|]. intros l L. exact (proj1 (blank_spec 2 _) Y l L).
  - rewrite (snapped_parts 2 rare deaths ltac:(lia) rare_valid 0 1 ltac:(lia)). unfold bd_part. cbn [Nat.eqb]. rewrite Rplus_0_l, Rplus_0_r. cbn [rare].
    unfold f_snap. destruct (Rle_dec (Rabs (/ 1073741824)) f_eps) as [_|G].
    + unfold Rdiv. now rewrite Rmult_0_l, rnd_0.
    + exfalso. apply G. pose proof eps_bounds as EB. rewrite Rabs_pos_eq; lra.
Qed.
