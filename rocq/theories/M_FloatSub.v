(** M_FloatSub: subchains in binary64 ([rnd], see Fl). *)
From Coq Require Import Reals List.
From Verif Require Import Fl M_Float M_FloatNorm.
Import ListNotations.
Local Open Scope R_scope.

(** generators.py 1006-1008, the end of mc_sub: the rows and columns of [idx], divided by their sums; [idx] are the given
    states with everything they lead to, sorted (generators.py 988-1004, modelled apart) *)
Definition f_sub (sm : list R -> R) (idx : list nat) (p : fmat) : fmat :=
  f_normalize sm (length idx) (fun i j => p (nth i idx 0%nat) (nth j idx 0%nat)).
