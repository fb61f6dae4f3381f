(** M_FloatRed: redistribution in binary64 ([rnd], see Fl).  Overflow is left out. *)
From Coq Require Import Reals List.
From Verif Require Import Fl M_Float.
Import ListNotations.
Local Open Scope R_scope.

(** simulations.py 184 value[i - 1, :].dot(p): [dt] is any way of computing the products of rows and columns *)
Definition f_vecmat (dt : list (R * R) -> R) (n : nat) (v : nat -> R) (p : fmat) : nat -> R :=
  fun j => dt (map (fun i => (v i, p i j)) (seq 0 n)).
(** simulations.py 176-193 mc_redistribute: the distribution after k steps; [sm] is any way of adding up a row *)
Fixpoint f_redistribute (sm : list R -> R) (dt : list (R * R) -> R) (n : nat) (p : fmat) (v : nat -> R) (k : nat) : nat -> R :=
  match k with
  | O => v
  | S k =>
      let y := f_vecmat dt n (f_redistribute sm dt n p v k) p in
      fun j => rnd (y j / sm (frow n y))
  end.
(** the result: all distributions or only the last one *)
Definition f_redistributions sm dt n p v steps (output_last : bool) : list (nat -> R) :=
  if output_last then [f_redistribute sm dt n p v steps]
  else map (f_redistribute sm dt n p v) (seq 0 (steps + 1)).
