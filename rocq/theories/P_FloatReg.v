(** P_FloatReg: regularity with doubles (theorems only). *)
From Coq Require Import Reals List ZArith.
From Flocq Require Import Core.
From Verif Require Import L_Struct3 L_Simulation.
From Verif Require Import Fl M_Float S_Float L_Float1 L_FloatReg.
Open Scope nat_scope.

(** ** C152 is_regular in double precision (continued) *)
Theorem C152_right_partial : forall dt n P p (e : nat), 2 <= n -> stochastic n P -> (forall i j, i < n -> j < n -> p i j = Qc2R (mget P i j)) -> dotting dt ->
  (forall i j, i < n -> j < n -> (0 < p i j)%R -> (bpow radix2 (- Z.of_nat e) <= p i j)%R) ->
  (e * M_Struct.regular_exponent P <= 1074) ->
  (f_is_regular dt n (M_Struct.count_nonzero_diag P) p <-> regular n P).
Proof. exact regular_right. Qed.
Print Assumptions C152_right_partial.
Example C152_right_example : stochastic 2 pReg /\ (forall i j, i < 2 -> j < 2 -> (0 < Qc2R (mget pReg i j))%R -> (bpow radix2 (- Z.of_nat 2) <= Qc2R (mget pReg i j))%R) /\ 2 * M_Struct.regular_exponent pReg <= 1074.
Proof. exact pReg_ok. Qed.
