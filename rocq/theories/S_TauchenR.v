(** S_TauchenR: Tauchen's method.  The process moves from the i-th point of an equally spaced grid over k standard
    deviations to the grid point nearest to rho times the point plus a normal shock. *)
From Coq Require Import Reals.
From Verif Require Import S_Adda.
Local Open Scope R_scope.

Definition grid (n : nat) (k sd : R) (i : nat) : R := k * sd * (2 * INR i / (INR n - 1) - 1).
(** lower end of the cell of the grid point j *)
Definition cell (n : nat) (k sd : R) (j : nat) : ext :=
  if Nat.eqb j 0 then MInf else if Nat.eqb j n then PInf else Fin ((grid n k sd (j - 1) + grid n k sd j) / 2).
(** probability that mean plus sigma times a normal variable is below z *)
Definition prob_below (cdf : R -> R) (mean sigma : R) (z : ext) : R :=
  match z with MInf => 0 | Fin z => cdf ((z - mean) / sigma) | PInf => 1 end.
Definition tauchen_method (cdf : R -> R) (n : nat) (sigma rho k : R) (i j : nat) : R :=
  let sd := sigma / sqrt (1 - rho * rho) in
  prob_below cdf (rho * grid n k sd i) sigma (cell n k sd (S j)) - prob_below cdf (rho * grid n k sd i) sigma (cell n k sd j).
