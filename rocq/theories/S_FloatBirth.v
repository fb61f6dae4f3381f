(** S_FloatBirth: the exact birth and death chain. *)
From Coq Require Import Reals List.
Local Open Scope R_scope.

(** one up with probability a, one down with probability b, otherwise stay *)
Definition birth_deathR (a b : nat -> R) (i j : nat) : R :=
  if Nat.eqb j i then 1 - a i - b i
  else if Nat.eqb j (S i) then a i
  else if Nat.eqb i (S j) then b i else 0.
