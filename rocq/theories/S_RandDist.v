(** S_RandDist: what the documentation of random_distribution promises. *)
From Coq Require Import Reals List.
From Flocq Require Import Core.
From Verif Require Import Fl S_Float M_RandDist.
Local Open Scope R_scope.

(** a double that a draw can be *)
Definition a_double (a : xdouble) : Prop :=
  match a with XFin x => is_double x /\ Rabs x < bpow radix2 1024 | _ => True end.
(** nan and negative values count as zero, infinite values as the largest number *)
Definition value_of (a : xdouble) : R :=
  match a with XFin x => if Rlt_dec 0 x then x else 0 | XPos => dmax | XNeg => 0 | XNan => 0 end.
