(** M_FloatSeq: the probability of a sequence in binary64 ([rnd], see Fl).  Overflow is left out. *)
From Coq Require Import Reals List.
From Verif Require Import Fl M_Float.
Import ListNotations.
Local Open Scope R_scope.

(** simulations.py 198-207: [lg] is numpy.log, the result None is minus infinity *)
Fixpoint f_log_loop (lg : R -> R) (p : fmat) (moves : list (nat * nat)) (wp : R) : option R :=
  match moves with
  | [] => Some wp
  | (i, j) :: r => if Rlt_dec 0 (p i j) then f_log_loop lg p r (rnd (wp + lg (p i j))) else None
  end.
(** simulations.py 194-211 mc_sequence_probability: [ex] is numpy.exp, which is 0 at minus infinity *)
Definition f_sequence_probability (lg ex : R -> R) (p : fmat) (w : list nat) : R :=
  match f_log_loop lg p (combine (removelast w) (tl w)) 0 with None => 0 | Some wp => ex wp end.
