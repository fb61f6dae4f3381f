(** M_RandDist: MarkovChain.random_distribution (/repo/pydtmc/markov_chain.py 2697-2738) after its arguments are
    validated, in binary64 with overflow, infinities and nan. *)
From Coq Require Import Reals List ZArith Bool Permutation.
From Flocq Require Import Core.
From Verif Require Import Fl M_Float.
Import ListNotations.
Local Open Scope R_scope.

(** a double: finite, plus or minus infinity, or nan; the sign of zero is left out *)
Inductive xdouble := XFin (x : R) | XPos | XNeg | XNan.

(** rounding to nearest even with overflow *)
Definition xround (x : R) : xdouble :=
  if Rlt_dec (Rabs (rnd x)) (bpow radix2 1024) then XFin (rnd x) else if Rlt_dec 0 x then XPos else XNeg.
(** the largest finite double *)
Definition dmax : R := bpow radix2 1024 - bpow radix2 971.

Definition xadd (a b : xdouble) : xdouble :=
  match a, b with
  | XNan, _ | _, XNan => XNan
  | XPos, XNeg | XNeg, XPos => XNan
  | XPos, _ | _, XPos => XPos
  | XNeg, _ | _, XNeg => XNeg
  | XFin x, XFin y => xround (x + y)
  end.
(** division; a zero divisor cannot occur below and is answered by nan *)
Definition xdiv (a b : xdouble) : xdouble :=
  match a, b with
  | XNan, _ | _, XNan => XNan
  | XFin x, XFin y => if Req_EM_T y 0 then XNan else xround (x / y)
  | XFin _, _ => XFin 0
  | _, XFin y => if Rlt_dec y 0 then (match a with XPos => XNeg | _ => XPos end) else a
  | _, _ => XNan
  end.

(** numpy.sum in any order and grouping, as in M_Float *)
Inductive xsum : list xdouble -> xdouble -> Prop :=
| xs_nil : xsum [] (XFin 0)
| xs_one x : xsum [x] x
| xs_add l l1 l2 v1 v2 : Permutation l (l1 ++ l2) -> xsum l1 v1 -> xsum l2 v2 -> xsum l (xadd v1 v2).
Definition xsumming (sm : list xdouble -> xdouble) : Prop := forall l, xsum l (sm l).
(** from left to right *)
Definition xseq_sum (l : list xdouble) : xdouble := fold_left xadd l (XFin 0).

Definition xmat := nat -> nat -> xdouble.
Definition xrow (n : nat) (f : nat -> xdouble) : list xdouble := map f (seq 0 n).

(** line 2732: numpy.nan_to_num, then numpy.clip from below by zero *)
Definition nan_to_num (a : xdouble) : xdouble :=
  match a with XFin x => XFin x | XPos => XFin dmax | XNeg => XFin (- dmax) | XNan => XFin 0 end.
Definition clip0 (a : xdouble) : xdouble :=
  match a with XFin x => XFin (Rmax 0 x) | XPos => XPos | XNeg => XFin 0 | XNan => XNan end.
Definition x_is_zero (a : xdouble) : bool := match a with XFin x => if Req_EM_T x 0 then true else false | _ => false end.
(** lines 2731-2734, [d i j] the draws *)
Definition x_weights (d : xmat) : xmat := fun i j => clip0 (nan_to_num (d i j)).
Definition x_filled (n : nat) (d : xmat) : xmat :=
  fun i j => if forallb x_is_zero (xrow n (x_weights d i)) then XFin 1 else x_weights d i j.
Definition x_random_distribution (sm : list xdouble -> xdouble) (n : nat) (d : xmat) : xmat :=
  fun i j => xdiv (x_filled n d i j) (sm (xrow n (x_filled n d i))).

(** validation.py 1063-1083, called by the constructor at line 2736 *)
Definition x_accepts (sm : list xdouble -> xdouble) (n : nat) (p : xmat) : Prop :=
  (2 <= n)%nat /\
  (forall i j, (i < n)%nat -> (j < n)%nat -> exists x, p i j = XFin x /\ is_double x /\ 0 <= x <= 1) /\
  (forall i, (i < n)%nat -> exists v, sm (xrow n (p i)) = XFin v /\ f_close1 v).
