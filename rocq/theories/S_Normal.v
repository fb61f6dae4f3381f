(** S_Normal: the standard normal distribution. *)
From Coq Require Import Reals.
From Verif Require Import Calc.
Local Open Scope R_scope.

(** density *)
Definition phi (x : R) : R := exp (- (x * x) / 2) / sqrt (2 * PI).
(** distribution function: the primitive of the density that vanishes at minus infinity *)
Definition normal_cdf (F : R -> R) : Prop := deriv F phi /\ to_left F 0.
(** quantiles *)
Definition normal_quantile (F q : R -> R) : Prop := forall u, 0 < u < 1 -> F (q u) = u.
