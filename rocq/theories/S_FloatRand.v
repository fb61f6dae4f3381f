(** S_FloatRand: what a random row should hold. *)
From Coq Require Import Reals List.
From Verif Require Import S_Float.
Local Open Scope R_scope.

(** the exact total of the entries of a row in the chosen columns *)
Definition total (n : nat) (sel : nat -> bool) (v : nat -> R) : R := rsumn n (fun j => if sel j then v j else 0).
(** the share of a free column: what the given values leave, in proportion to the numbers drawn *)
Definition share (n : nat) (free : nat -> bool) (v : nat -> R) (j : nat) : R :=
  (1 - total n (fun j => negb (free j)) v) * (v j / total n free v).
