(** P_TauchenR: properties of Tauchen's approximation (theorems only).  scipy's norm.cdf is the normal distribution function. *)
From Coq Require Import Reals Lra Lia ZArith.
From Verif Require Import Base Calc S_Normal L_Normal S_Adda S_TauchenR M_TauchenR L_TauchenR.
Local Open Scope R_scope.

(** ** C157 Tauchen chains follow Tauchen's method.  [tol] is 1e-8 + 1e-5. *)
Theorem C157_replaced_refuted : forall cdf, normal_cdf cdf -> exists p, approximation_tauchen cdf 2 0 1 rho5 None = Ok p /\
  p 0%nat 0%nat <> tauchen_method cdf 2 1 rho5 3 0 0.
Proof. exact tauchen_replaced. Qed.
Print Assumptions C157_replaced_refuted.
Theorem C157_same_refuted : forall cdf size alpha sigma rho rho' k, -1 <= rho <= 1 -> -1 <= rho' <= 1 ->
  Rabs (rho - 1) <= tol -> Rabs (rho' - 1) <= tol ->
  approximation_tauchen cdf size alpha sigma rho k = approximation_tauchen cdf size alpha sigma rho' k.
Proof. exact tauchen_near. Qed.
Print Assumptions C157_same_refuted.
Theorem C157_method_partial : forall cdf size alpha sigma rho k p, approximation_tauchen cdf size alpha sigma rho k = Ok p ->
  tol < Rabs (rho - 1) -> forall i j, (i < Z.to_nat size)%nat -> (j < Z.to_nat size)%nat ->
  p i j = tauchen_method cdf (Z.to_nat size) sigma rho (match k with None => 3 | Some k => k end) i j.
Proof. exact tauchen_follows. Qed.
Print Assumptions C157_method_partial.
Example C157_example : normal_cdf Phi /\ tol < Rabs (9 / 10 - 1) /\ exists p, approximation_tauchen Phi 7 0 1 (9 / 10) None = Ok p.
Proof.
  split; [exact Phi_normal|]. split; [unfold tol; rewrite Rabs_left; lra|].
  apply tauchen_accepts. split; [lia|]. split; [lra|]. split; [lra|discriminate].
Qed.

(** ** C158 order and units *)
Theorem C158_accepts : forall cdf size alpha sigma rho k,
  (exists p, approximation_tauchen cdf size alpha sigma rho k = Ok p) <->
  (2 <= size)%Z /\ 0 < sigma /\ -1 < rho <= 1 /\ (forall k', k = Some k' -> 1 <= k').
Proof. exact tauchen_accepts. Qed.
Print Assumptions C158_accepts.
Theorem C158_positive : forall cdf size alpha sigma rho k p, approximation_tauchen cdf size alpha sigma rho k = Ok p -> normal_cdf cdf ->
  forall i j, (i < Z.to_nat size)%nat -> (j < Z.to_nat size)%nat -> 0 < p i j.
Proof. exact tauchen_positive. Qed.
Print Assumptions C158_positive.
Theorem C158_rows : forall cdf size alpha sigma rho k p, approximation_tauchen cdf size alpha sigma rho k = Ok p -> normal_cdf cdf ->
  forall i, (i < Z.to_nat size)%nat -> total (Z.to_nat size) (p i) = 1.
Proof. exact tauchen_rows. Qed.
Print Assumptions C158_rows.
Theorem C158_units : forall cdf size alpha alpha' sigma sigma' rho k p p', normal_cdf cdf ->
  approximation_tauchen cdf size alpha sigma rho k = Ok p -> approximation_tauchen cdf size alpha' sigma' rho k = Ok p' ->
  forall i j, (i < Z.to_nat size)%nat -> (j < Z.to_nat size)%nat -> p i j = p' i j.
Proof. exact tauchen_units. Qed.
Print Assumptions C158_units.
Theorem C158_mirror : forall cdf size alpha sigma rho k p, approximation_tauchen cdf size alpha sigma rho k = Ok p -> normal_cdf cdf ->
  forall i j, (i < Z.to_nat size)%nat -> (j < Z.to_nat size)%nat -> p (Z.to_nat size - 1 - i)%nat (Z.to_nat size - 1 - j)%nat = p i j.
Proof. exact tauchen_mirror. Qed.
Print Assumptions C158_mirror.
Theorem C158_monotone : forall cdf size alpha sigma rho k p, approximation_tauchen cdf size alpha sigma rho k = Ok p -> normal_cdf cdf ->
  forall i m, 0 <= rho -> (S i < Z.to_nat size)%nat -> (m <= Z.to_nat size)%nat -> total m (p (S i)) <= total m (p i).
Proof. exact tauchen_monotone. Qed.
Print Assumptions C158_monotone.
Theorem C158_independent : forall cdf size alpha sigma rho k p, approximation_tauchen cdf size alpha sigma rho k = Ok p -> normal_cdf cdf ->
  forall i i' j, rho = 0 -> (i < Z.to_nat size)%nat -> (i' < Z.to_nat size)%nat -> (j < Z.to_nat size)%nat -> p i j = p i' j.
Proof. exact tauchen_independent. Qed.
Print Assumptions C158_independent.
Example C158_example : normal_cdf Phi /\ exists p p', approximation_tauchen Phi 7 0 1 (9 / 10) None = Ok p /\
  approximation_tauchen Phi 7 5 (1 / 10) (9 / 10) None = Ok p'.
Proof.
  split; [exact Phi_normal|].
  destruct (proj2 (tauchen_accepts Phi 7 0 1 (9 / 10) None)) as [p H]; [split; [lia|]; split; [lra|]; split; [lra|discriminate]|].
  destruct (proj2 (tauchen_accepts Phi 7 5 (1 / 10) (9 / 10) None)) as [p' H']; [split; [lia|]; split; [lra|]; split; [lra|discriminate]|].
  now exists p, p'.
Qed.
