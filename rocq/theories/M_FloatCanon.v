(** M_FloatCanon: the canonical form in binary64 ([rnd], see Fl). *)
From Coq Require Import Reals List Bool Arith.
From Verif Require Import Fl M_Float.
Import ListNotations.
Local Open Scope R_scope.

(** generators.py 611: max(transient_indices) < min(recurrent_indices), both non-empty *)
Definition f_sorted (tr rc : list nat) : bool := forallb (fun t => forallb (fun r => Nat.ltb t r) rc) tr.
(** generators.py 604-621 mc_canonical: the matrix handed to the constructor by markov_chain.py 1944-1946; [tr] and [rc]
    are the indices of the transient and of the recurrent states.  The first test (no transient or no recurrent state)
    is covered by [f_sorted], true for an empty list. *)
Definition f_canonical (tr rc : list nat) (p : fmat) : fmat :=
  if f_sorted tr rc then p else fun i j => p (nth i (tr ++ rc) 0%nat) (nth j (tr ++ rc) 0%nat).
