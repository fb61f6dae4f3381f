(** P_Adda: properties of the Adda-Cooper approximation (theorems only).
    scipy's normal distribution, its quantiles and its integrals are assumed exact ([normal_cdf], [normal_quantile],
    [quad_exact]); [adda_example] shows that this can be met for all accepted parameters. *)
From Coq Require Import Reals Lra ZArith.
From Verif Require Import Base Calc S_Normal L_Normal S_Adda M_Adda L_Adda2.
Local Open Scope R_scope.

(** ** C19 accepted parameters *)
Theorem C19_adda_cooper_refuted : forall iq size alpha sigma rho, (2 <= size)%Z -> 0 < sigma -> rho = 1 \/ rho = -1 ->
  approximation_adda iq size alpha sigma rho = Err ArithErr.
Proof. exact adda_unit_root. Qed.
Print Assumptions C19_adda_cooper_refuted.
Theorem C19_adda_cooper_partial : forall iq size alpha sigma rho, (exists p, approximation_adda iq size alpha sigma rho = Ok p) <->
  (2 <= size)%Z /\ 0 < sigma /\ -1 < rho < 1.
Proof. exact adda_accepts. Qed.
Print Assumptions C19_adda_cooper_partial.
Example C19_adda_example : (2 <= 5)%Z /\ 0 < 1 / 10 /\ -1 < 9 / 10 < 1.
Proof. split; [discriminate|lra]. Qed.

(** ** C154 Adda-Cooper chains are chains, whatever the units *)
Theorem C154_positive : forall cdf ppf iq size alpha sigma rho p, normal_cdf cdf -> normal_quantile cdf ppf ->
  quad_exact cdf ppf iq (Z.to_nat size) alpha sigma rho -> approximation_adda iq size alpha sigma rho = Ok p ->
  forall i j, (i < Z.to_nat size)%nat -> (j < Z.to_nat size)%nat -> 0 < p i j.
Proof. exact adda_positive. Qed.
Print Assumptions C154_positive.
Theorem C154_rows : forall cdf ppf iq size alpha sigma rho p, normal_cdf cdf -> normal_quantile cdf ppf ->
  quad_exact cdf ppf iq (Z.to_nat size) alpha sigma rho -> approximation_adda iq size alpha sigma rho = Ok p ->
  forall i, (i < Z.to_nat size)%nat -> total (Z.to_nat size) (p i) = 1.
Proof. exact adda_rows. Qed.
Print Assumptions C154_rows.
Theorem C154_units : forall cdf ppf iq iq' size alpha alpha' sigma sigma' rho p p', normal_cdf cdf -> normal_quantile cdf ppf ->
  quad_exact cdf ppf iq (Z.to_nat size) alpha sigma rho -> quad_exact cdf ppf iq' (Z.to_nat size) alpha' sigma' rho ->
  approximation_adda iq size alpha sigma rho = Ok p -> approximation_adda iq' size alpha' sigma' rho = Ok p' ->
  forall i j, (i < Z.to_nat size)%nat -> (j < Z.to_nat size)%nat -> p i j = p' i j.
Proof. exact adda_units. Qed.
Print Assumptions C154_units.
Example C154_example : forall size alpha sigma rho, (2 <= size)%Z -> 0 < sigma -> -1 < rho < 1 ->
  exists iq p, normal_cdf Phi /\ normal_quantile Phi quantile /\
    quad_exact Phi quantile iq (Z.to_nat size) alpha sigma rho /\ approximation_adda iq size alpha sigma rho = Ok p.
Proof. exact adda_example. Qed.

(** ** C155 the chain starts in equilibrium *)
Theorem C155_symmetric : forall cdf ppf iq size alpha sigma rho p, normal_cdf cdf ->
  quad_exact cdf ppf iq (Z.to_nat size) alpha sigma rho -> approximation_adda iq size alpha sigma rho = Ok p ->
  forall i j, (i < Z.to_nat size)%nat -> (j < Z.to_nat size)%nat -> p i j = p j i.
Proof. exact adda_symmetric. Qed.
Print Assumptions C155_symmetric.
Theorem C155_uniform : forall cdf ppf iq size alpha sigma rho p, normal_cdf cdf -> normal_quantile cdf ppf ->
  quad_exact cdf ppf iq (Z.to_nat size) alpha sigma rho -> approximation_adda iq size alpha sigma rho = Ok p ->
  forall j, (j < Z.to_nat size)%nat -> total (Z.to_nat size) (fun i => / INR (Z.to_nat size) * p i j) = / INR (Z.to_nat size).
Proof. exact adda_uniform. Qed.
Print Assumptions C155_uniform.
Theorem C155_mirror : forall cdf ppf iq size alpha sigma rho p, normal_cdf cdf -> normal_quantile cdf ppf ->
  quad_exact cdf ppf iq (Z.to_nat size) alpha sigma rho -> approximation_adda iq size alpha sigma rho = Ok p ->
  forall i j, (i < Z.to_nat size)%nat -> (j < Z.to_nat size)%nat -> p (Z.to_nat size - 1 - i)%nat (Z.to_nat size - 1 - j)%nat = p i j.
Proof. exact adda_mirror. Qed.
Print Assumptions C155_mirror.
Example C155_example : exists iq p, quad_exact Phi quantile iq 5 2 (1 / 10) (9 / 10) /\ approximation_adda iq 5 2 (1 / 10) (9 / 10) = Ok p.
Proof.
  destruct (adda_example 5 2 (1 / 10) (9 / 10) ltac:(discriminate) ltac:(lra) ltac:(lra)) as (iq & p & _ & _ & A & B). now exists iq, p.
Qed.

(** ** C156 persistence *)
Theorem C156_monotone : forall cdf ppf iq size alpha sigma rho p, normal_cdf cdf -> normal_quantile cdf ppf ->
  quad_exact cdf ppf iq (Z.to_nat size) alpha sigma rho -> approximation_adda iq size alpha sigma rho = Ok p ->
  forall i m, 0 <= rho -> (S i < Z.to_nat size)%nat -> (m <= Z.to_nat size)%nat -> total m (p (S i)) <= total m (p i).
Proof. exact adda_monotone. Qed.
Print Assumptions C156_monotone.
Theorem C156_independent : forall cdf ppf iq size alpha sigma rho p, normal_cdf cdf -> normal_quantile cdf ppf ->
  quad_exact cdf ppf iq (Z.to_nat size) alpha sigma rho -> approximation_adda iq size alpha sigma rho = Ok p ->
  forall i j, rho = 0 -> (i < Z.to_nat size)%nat -> (j < Z.to_nat size)%nat -> p i j = / INR (Z.to_nat size).
Proof. exact adda_independent. Qed.
Print Assumptions C156_independent.
Theorem C156_reflected : forall cdf ppf iq iq' size alpha sigma rho p p', normal_cdf cdf -> normal_quantile cdf ppf ->
  quad_exact cdf ppf iq (Z.to_nat size) alpha sigma rho -> quad_exact cdf ppf iq' (Z.to_nat size) alpha sigma (- rho) ->
  approximation_adda iq size alpha sigma rho = Ok p -> approximation_adda iq' size alpha sigma (- rho) = Ok p' ->
  forall i j, (i < Z.to_nat size)%nat -> (j < Z.to_nat size)%nat -> p' i j = p i (Z.to_nat size - 1 - j)%nat.
Proof. exact adda_reflected. Qed.
Print Assumptions C156_reflected.
Example C156_example : exists iq p, quad_exact Phi quantile iq 3 0 1 (- (1 / 2)) /\ approximation_adda iq 3 0 1 (- (1 / 2)) = Ok p.
Proof.
  destruct (adda_example 3 0 1 (- (1 / 2)) ltac:(discriminate) ltac:(lra) ltac:(lra)) as (iq & p & _ & _ & A & B). now exists iq, p.
Qed.
