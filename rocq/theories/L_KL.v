(** L_KL: the Kullback-Leibler divergence of an aggregation. *)
From Verif Require Export L_Entropy M_KL S_KL L_Aggregate4.
From Coq Require Import Reals Qreals Lra.
Close Scope Q_scope. Close Scope R_scope.
Open Scope nat_scope.

Lemma kl_div a b : b <> 0q -> Qc2R (a / b)%Qc = (Qc2R a / Qc2R b)%R.
Proof.
  intros Hb. assert (Hr : Qc2R b <> 0%R) by (intros E; apply Hb, Qc2R_inj; rewrite Qc2R_0; exact E).
  apply (Rmult_eq_reg_r (Qc2R b)); [|exact Hr]. rewrite <- Qc2R_mul. unfold Rdiv. rewrite Rmult_assoc, Rinv_l, Rmult_1_r by exact Hr.
  f_equal. unfold Qcdiv. rewrite <- Qcmult_assoc, (Qcmult_comm (/ b)), Qcmult_inv_r by exact Hb. ring.
Qed.
Lemma ln2_pos : (0 < ln 2)%R.
Proof. rewrite <- ln_1. apply ln_increasing; lra. Qed.
Lemma ln_div_R x y : (0 < x)%R -> (0 < y)%R -> ln (x / y) = (ln x - ln y)%R.
Proof. intros Hx Hy. unfold Rdiv. rewrite ln_mult by (try apply Rinv_0_lt_compat; assumption). rewrite ln_Rinv by exact Hy. lra. Qed.
Lemma alog2_0 b : alog2 0q b = 0%R.
Proof. reflexivity. Qed.
Lemma alog2_pos a b : (0 < a)%Qc -> (0 < b)%Qc -> alog2 a b = (Qc2R a * ((ln (Qc2R a) - ln (Qc2R b)) / ln 2))%R.
Proof.
  intros Ha Hb. unfold alog2. destruct (Qceqb_spec a 0) as [->|_]; [exfalso; exact (Qclt_irr _ Ha)|].
  change (Q2R a) with (Qc2R a). change (Q2R b) with (Qc2R b). rewrite ln_div_R by (apply Qc2R_pos; assumption). reflexivity.
Qed.
Lemma alog2_self a : (0 <= a)%Qc -> alog2 a a = 0%R.
Proof. intros Ha. destruct (pos_or_0 a Ha) as [Pa| ->]; [|apply alog2_0]. rewrite alog2_pos by assumption. unfold Rdiv. ring. Qed.
Lemma alog2_mul a b c d : (0 <= a)%Qc -> (0 <= c)%Qc -> ((0 < a)%Qc -> (0 < b)%Qc) -> ((0 < c)%Qc -> (0 < d)%Qc) ->
  alog2 (a * c)%Qc (b * d)%Qc = (Qc2R c * alog2 a b + Qc2R a * alog2 c d)%R.
Proof.
  intros Ha Hc Hab Hcd. destruct (pos_or_0 a Ha) as [Pa| ->]; [destruct (pos_or_0 c Hc) as [Pc| ->]|].
  - specialize (Hab Pa). specialize (Hcd Pc). rewrite !alog2_pos by (assumption || apply Qc_mul_pos; assumption).
    rewrite !Qc2R_mul, !ln_mult by (apply Qc2R_pos; assumption). unfold Rdiv. ring.
  - replace (a * 0)%Qc with 0q by ring. rewrite !alog2_0, Qc2R_0. ring.
  - replace (0 * c)%Qc with 0q by ring. rewrite !alog2_0, Qc2R_0. ring.
Qed.
Lemma ln_eq_sub x : (0 < x)%R -> (x - 1 <= ln x)%R -> x = 1%R.
Proof.
  intros H E. destruct (Req_dec (ln x) 0) as [Z|N].
  - rewrite <- (exp_ln x H), Z. apply exp_0.
  - pose proof (exp_ineq1 (ln x) N) as L. rewrite exp_ln in L by exact H. lra.
Qed.
(** a log (a/b) >= a - b, with equality only for a = b. *)
Lemma alog2_ge a b : (0 <= a)%Qc -> (0 <= b)%Qc -> ((0 < a)%Qc -> (0 < b)%Qc) -> ((Qc2R a - Qc2R b) / ln 2 <= alog2 a b)%R.
Proof.
  intros Ha Hb Hab. pose proof ln2_pos as L2. destruct (pos_or_0 a Ha) as [Pa| ->].
  - specialize (Hab Pa). rewrite alog2_pos by assumption. apply Qc2R_pos in Pa. apply Qc2R_pos in Hab.
    set (x := Qc2R a) in *. set (y := Qc2R b) in *.
    assert (Q : (0 < y / x)%R) by (apply Rdiv_lt_0_compat; assumption). pose proof (ln_le_sub _ Q) as L. rewrite ln_div_R in L by assumption.
    unfold Rdiv. rewrite <- Rmult_assoc. apply Rmult_le_compat_r; [left; apply Rinv_0_lt_compat; exact L2|].
    assert (E : (x * (y / x) = y)%R) by (field; lra). nra.
  - rewrite alog2_0, Qc2R_0. apply Qc2R_nonneg in Hb. unfold Rdiv. pose proof (Rinv_0_lt_compat _ L2). nra.
Qed.
Lemma alog2_eq a b : (0 <= a)%Qc -> (0 <= b)%Qc -> ((0 < a)%Qc -> (0 < b)%Qc) -> (alog2 a b <= (Qc2R a - Qc2R b) / ln 2)%R -> a = b.
Proof.
  intros Ha Hb Hab H. pose proof ln2_pos as L2. destruct (pos_or_0 a Ha) as [Pa| ->].
  - specialize (Hab Pa). rewrite alog2_pos in H by assumption. apply Qc2R_pos in Pa. apply Qc2R_pos in Hab. apply Qc2R_inj.
    set (x := Qc2R a) in *. set (y := Qc2R b) in *.
    assert (Q : (0 < y / x)%R) by (apply Rdiv_lt_0_compat; assumption).
    unfold Rdiv in H at 1. rewrite <- Rmult_assoc in H. apply Rmult_le_reg_r in H; [|apply Rinv_0_lt_compat; exact L2].
    assert (E : (x * (y / x) = y)%R) by (field; lra).
    assert (L : (y / x - 1 <= ln (y / x))%R) by (rewrite ln_div_R by assumption; apply (Rmult_le_reg_l x); [exact Pa|]; nra).
    apply ln_eq_sub in L; [|exact Q]. rewrite L in E. lra.
  - rewrite alog2_0, Qc2R_0 in H. apply Qc2R_inj. rewrite Qc2R_0. apply Qc2R_nonneg in Hb. unfold Rdiv in H. pose proof (Rinv_0_lt_compat _ L2). nra.
Qed.
(** nan_to_num changes nothing that counts: the logarithm is multiplied by the probability. *)
Lemma num_log2_val a b : (0 <= a)%Qc -> (0 <= b)%Qc -> ((0 < a)%Qc -> (0 < b)%Qc) -> (Qc2R a * num_log2 a b)%R = alog2 a b.
Proof.
  intros Ha Hb Hab. destruct (pos_or_0 a Ha) as [Pa| ->].
  - specialize (Hab Pa). rewrite alog2_pos by assumption. unfold num_log2.
    destruct (Qceqb_spec b 0) as [->|Nb]; [exfalso; exact (Qclt_irr _ Hab)|]. destruct (Qceqb_spec a 0) as [->|Na]; [exfalso; exact (Qclt_irr _ Pa)|].
    destruct (Qcltb (a / b) 0) eqn:E.
    + apply Qcltb_lt in E. exfalso. apply (Qclt_irr 0q). eapply Qcle_lt_trans; [|exact E]. apply Qc_div_nonneg; assumption.
    + rewrite kl_div, ln_div_R by (assumption || apply Qc2R_pos; assumption). reflexivity.
  - rewrite alog2_0, Qc2R_0. ring.
Qed.
Lemma totR_ls n f : totR n f = lsumR (map f (seq 0 n)).
Proof. reflexivity. Qed.
