(** S_FloatUrn: the exact urn models and the exact boundary rows. *)
From Coq Require Import Reals List.
Local Open Scope R_scope.

(** two urns of n balls each, d = 2 n balls, state i: a ball moves down with probability down i, up with up i *)
Definition chainR (d : nat) (down up : R -> R) (i j : nat) : R :=
  let x := INR i / INR d in
  if Nat.eqb (S j) i then down x
  else if Nat.eqb j i then 1 - down x - up x
  else if Nat.eqb j (S i) then up x
  else 0.
Definition laplaceR (n : nat) : nat -> nat -> R := chainR (2 * n) (fun x => x * x) (fun x => (1 - x) * (1 - x)).
Definition ehrenfestR (n : nat) : nat -> nat -> R := chainR (2 * n) (fun x => x) (fun x => 1 - x).

(** the semi-reflecting condition: leave state [e] for its neighbour [nb] with probability x, else stay *)
Definition edgeR (e nb : nat) (x : R) (j : nat) : R := if Nat.eqb j nb then x else if Nat.eqb j e then 1 - x else 0.
