(** S_FloatMoran: the exact Moran model and gambler's ruin. *)
From Coq Require Import Reals List.
Local Open Scope R_scope.

(** with i mutants among n, of relative fitness 1 - s, and mutation probabilities u and v *)
Definition loseR (n : nat) (s u v : R) (i : nat) : R :=
  INR i / INR n * (((1 - s) * INR i * v + INR (n - i) * (1 - v)) / ((1 - s) * INR i + INR (n - i))).
Definition gainR (n : nat) (s u v : R) (i : nat) : R :=
  INR (n - i) / INR n * (((1 - s) * INR i * (1 - u) + INR (n - i) * v) / ((1 - s) * INR i + INR (n - i))).
(** lose one, gain one or stay; 0 and n are absorbing *)
Definition moranR (n : nat) (s u v : R) (i j : nat) : R :=
  if Nat.eqb i 0 then (if Nat.eqb j 0 then 1 else 0)
  else if Nat.eqb i n then (if Nat.eqb j n then 1 else 0)
  else if Nat.eqb (S j) i then loseR n s u v i
  else if Nat.eqb j i then 1 - loseR n s u v i - gainR n s u v i
  else if Nat.eqb j (S i) then gainR n s u v i
  else 0.
(** the fortune grows by one with probability w, shrinks by one otherwise; 0 and n - 1 are absorbing *)
Definition ruinR (n : nat) (w : R) (i j : nat) : R :=
  if Nat.eqb i 0 then (if Nat.eqb j 0 then 1 else 0)
  else if Nat.eqb i (n - 1) then (if Nat.eqb j (n - 1) then 1 else 0)
  else if Nat.eqb (S j) i then 1 - w
  else if Nat.eqb j (S i) then w
  else 0.
