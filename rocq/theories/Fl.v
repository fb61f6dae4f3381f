(** Fl: IEEE 754 binary64 numbers as real numbers, with rounding to nearest even (Flocq).
    [rnd x] is the double nearest to the real [x]; overflow is left out (no number below
    comes near 2^1024), underflow and subnormal numbers are kept. *)
From Coq Require Import Reals Lra Lia List ZArith.
From Flocq Require Import Core Relative Plus_error.
Import ListNotations.
Local Open Scope R_scope.

Definition fexp64 : Z -> Z := FLT_exp (-1074) 53.
Definition rnd (x : R) : R := round radix2 fexp64 ZnearestE x.
Definition is_double (x : R) : Prop := generic_format radix2 fexp64 x.

(** unit roundoff 2^-53 and half the smallest positive double, 2^-1075 *)
Definition uu : R := bpow radix2 (-53).
Definition tiny : R := bpow radix2 (-1075).

Global Instance prec53 : Prec_gt_0 53. Proof. unfold Prec_gt_0; lia. Qed.
Global Instance vexp64 : Valid_exp fexp64. Proof. unfold fexp64; apply FLT_exp_valid. apply prec53. Qed.
Global Instance mexp64 : Monotone_exp fexp64. Proof. unfold fexp64; apply FLT_exp_monotone. Qed.

Global Instance nftz64 : Exp_not_FTZ fexp64. Proof. apply monotone_exp_not_FTZ; auto with typeclass_instances. Qed.

Lemma uu_val : uu = / 9007199254740992.
Proof. unfold uu; simpl; reflexivity. Qed.
Lemma uu_pos : 0 < uu. Proof. apply bpow_gt_0. Qed.
Lemma tiny_pos : 0 < tiny. Proof. apply bpow_gt_0. Qed.
Lemma tiny_uu : tiny <= uu. Proof. apply bpow_le; lia. Qed.

Lemma tiny2 : 2 * tiny = bpow radix2 (-1074).
Proof.
  unfold tiny. change (-1074)%Z with (1 + -1075)%Z. rewrite bpow_plus.
  generalize (bpow radix2 (-1075)); intros b. change (bpow radix2 1) with 2. reflexivity.
Qed.

Lemma is_double_rnd x : is_double (rnd x).
Proof. apply generic_format_round; auto with typeclass_instances. Qed.
Lemma rnd_id x : is_double x -> rnd x = x.
Proof. intros; apply round_generic; auto with typeclass_instances. Qed.
Lemma rnd_le x y : x <= y -> rnd x <= rnd y.
Proof. intros; apply round_le; auto with typeclass_instances. Qed.
Lemma is_double_0 : is_double 0. Proof. apply generic_format_0. Qed.
Lemma is_double_bpow e : (-1074 <= e)%Z -> is_double (bpow radix2 e).
Proof. intros; apply generic_format_bpow; unfold fexp64, FLT_exp; lia. Qed.
Lemma is_double_1 : is_double 1. Proof. apply (is_double_bpow 0); lia. Qed.
Lemma rnd_0 : rnd 0 = 0. Proof. apply rnd_id, is_double_0. Qed.
Lemma rnd_1 : rnd 1 = 1. Proof. apply rnd_id, is_double_1. Qed.
Lemma rnd_nonneg x : 0 <= x -> 0 <= rnd x.
Proof. intros; rewrite <- rnd_0; now apply rnd_le. Qed.
Lemma rnd_le_1 x : x <= 1 -> rnd x <= 1.
Proof. intros; rewrite <- rnd_1; now apply rnd_le. Qed.

Lemma rnd_add x y : is_double x -> is_double y -> Rabs (rnd (x + y) - (x + y)) <= uu * Rabs (x + y).
Proof.
  intros Fx Fy. destruct (FLT_plus_error_N_ex radix2 (-1074) 53 (fun x => negb (Z.even x)) x y Fx Fy) as (eps & B & E).
  unfold rnd; fold fexp64 in E; rewrite E.
  replace ((x + y) * (1 + eps) - (x + y)) with (eps * (x + y)) by ring. rewrite Rabs_mult.
  apply Rmult_le_compat_r. apply Rabs_pos.
  eapply Rle_trans; [apply B|].
  assert (U : u_ro radix2 53 = uu) by (unfold u_ro, uu; simpl; lra). rewrite U.
  pose proof uu_pos. apply (Rmult_le_reg_r (1 + uu)); [lra|].
  unfold Rdiv; rewrite Rmult_assoc, Rinv_l by lra. nra.
Qed.

Lemma rnd_err x : Rabs (rnd x - x) <= uu * Rabs x + tiny.
Proof.
  destruct (error_N_FLT radix2 (-1074) 53 (ltac:(lia)) (fun x => negb (Z.even x)) x) as (eps & eta & A & B & C & D).
  unfold rnd; fold fexp64 in D; rewrite D.
  replace (x * (1 + eps) + eta - x) with (eps * x + eta) by ring.
  eapply Rle_trans; [apply Rabs_triang|]. apply Rplus_le_compat.
  - rewrite Rabs_mult. apply Rmult_le_compat_r. apply Rabs_pos.
    eapply Rle_trans; [apply A|]. unfold uu; simpl; lra.
  - eapply Rle_trans; [apply B|]. pose proof tiny2. lra.
Qed.

Lemma rnd_0_up x : 0 <= x -> rnd x <= x * (1 + uu) + tiny.
Proof. intros. pose proof (rnd_err x) as E. rewrite (Rabs_pos_eq x) in E by lra.
  apply Rabs_le_inv in E. lra. Qed.
Lemma rnd_0_lo x : 0 <= x -> x * (1 - uu) - tiny <= rnd x.
Proof. intros. pose proof (rnd_err x) as E. rewrite (Rabs_pos_eq x) in E by lra.
  apply Rabs_le_inv in E. lra. Qed.

Lemma double_pos x : is_double x -> 0 < x -> 2 * tiny <= x.
Proof.
  intros Fx P. pose proof (ulp_ge_ulp_0 radix2 fexp64 nftz64 x) as U.
  rewrite tiny2.
  pose proof (ulp_FLT_0 radix2 (-1074) 53) as Z0. fold fexp64 in Z0. rewrite Z0 in U.
  eapply Rle_trans; [exact U|]. apply ulp_le_id; auto with typeclass_instances.
Qed.

Lemma rnd_tiny x : 0 <= x -> x < tiny -> rnd x = 0.
Proof.
  intros A B. destruct (Rle_lt_or_eq_dec _ _ (rnd_nonneg x A)) as [H|H]; [exfalso|lra].
  pose proof (double_pos _ (is_double_rnd x) H) as G.
  pose proof (error_le_half_ulp radix2 fexp64 (fun x => negb (Z.even x)) x) as E. fold (rnd x) in E.
  assert (U : ulp radix2 fexp64 x <= 2 * tiny).
  { replace (2 * tiny) with (ulp radix2 fexp64 (bpow radix2 (-1075))).
    - apply ulp_le; auto with typeclass_instances. rewrite !Rabs_pos_eq; [fold tiny; lra| apply bpow_ge_0 | lra].
    - rewrite ulp_bpow, tiny2. reflexivity. }
  unfold rnd in *. apply Rabs_le_inv in E. lra.
Qed.

(** the double nearest to a number between two powers of two *)
Lemma rnd_eval x m e :
  (-1073 <= e)%Z -> bpow radix2 (e + 52) <= x < bpow radix2 (e + 53) ->
  Rabs (x * bpow radix2 (- e) - IZR m) < / 2 -> rnd x = IZR m * bpow radix2 e.
Proof.
  intros He Hx Hm. unfold rnd, round, F2R, scaled_mantissa, cexp; simpl Fnum; simpl Fexp.
  assert (M : mag radix2 x = (e + 53)%Z :> Z).
  { apply mag_unique_pos. replace (e + 53 - 1)%Z with (e + 52)%Z by lia. exact Hx. }
  rewrite M. assert (X : fexp64 (e + 53) = e) by (unfold fexp64, FLT_exp; lia). rewrite X.
  f_equal. f_equal. apply Znearest_imp. exact Hm.
Qed.

(** 1 - w + w never exceeds 1 *)
Lemma rnd_near_1 x : x <= 1 + uu / 2 -> rnd x <= 1.
Proof.
  intros H. apply round_N_le_midp; auto with typeclass_instances.
  - apply is_double_1.
  - rewrite succ_eq_pos by lra.
    assert (U : ulp radix2 fexp64 1 = / 4503599627370496)
      by (change 1 with (bpow radix2 0); rewrite ulp_bpow; reflexivity).
    rewrite U. pose proof uu_val. lra.
Qed.
Lemma one_minus w : is_double w -> 0 <= w <= 1 -> rnd (rnd (1 - w) + w) <= 1.
Proof.
  intros Fw W. apply rnd_near_1.
  destruct (Req_dec w 0) as [->|N].
  { rewrite Rminus_0_r, rnd_1. pose proof uu_pos. lra. }
  pose proof (error_le_half_ulp radix2 fexp64 (fun x => negb (Z.even x)) (1 - w)) as E.
  fold (rnd (1 - w)) in E.
  assert (U : ulp radix2 fexp64 (1 - w) <= uu).
  { assert (w1 : 1 - w < 1) by lra. destruct (Req_dec w 1) as [->|N1].
    - replace (1 - 1) with 0 by ring. unfold fexp64; rewrite ulp_FLT_0 by apply prec53. apply bpow_le; lia.
    - rewrite ulp_neq_0 by lra. unfold uu. apply bpow_le. unfold cexp, fexp64, FLT_exp.
      assert (mag radix2 (1 - w) <= 0)%Z; [|lia].
      apply mag_le_bpow; [lra|]. rewrite Rabs_pos_eq by lra. simpl; lra. }
  unfold rnd in *. apply Rabs_le_inv in E. lra.
Qed.
