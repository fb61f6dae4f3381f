(** S_FloatDir: breaking a stick. *)
From Coq Require Import Reals List.
From Verif Require Import S_Float.
Local Open Scope R_scope.

(** what is left of a stick of length one after the first j breaks, each taking the share g of the rest *)
Fixpoint leftR (g : nat -> R) (j : nat) : R := match j with O => 1 | S j => leftR g j * (1 - g j) end.
(** the piece number j *)
Definition pieceR (g : nat -> R) (j : nat) : R := leftR g j * g j.
(** the length of the first n pieces together *)
Definition brokenR (n : nat) (g : nat -> R) : R := rsumn n (pieceR g).
