(** M_FloatRew: expected rewards in binary64 ([rnd], see Fl).  Overflow is left out. *)
From Coq Require Import Reals List.
From Verif Require Import Fl M_Float.
Import ListNotations.
Local Open Scope R_scope.

(** measures.py 163-171 mc_expected_rewards: [dt] is any way of computing the products of rows and columns *)
Fixpoint f_rewards (dt : list (R * R) -> R) (n : nat) (p : fmat) (rewards : nat -> R) (k : nat) : nat -> R :=
  match k with
  | O => rewards
  | S k =>
      let er := f_rewards dt n p rewards k in
      fun i => rnd (rewards i + dt (map (fun j => (p i j, er j)) (seq 0 n)))
  end.
