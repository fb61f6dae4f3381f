(** S_Float: real matrices, the numbers the user means. *)
From Coq Require Import Reals List.
Import ListNotations.
Local Open Scope R_scope.

Fixpoint rsum (l : list R) : R := match l with [] => 0 | x :: l => x + rsum l end.
(** sum of f 0 ... f (n-1) *)
Definition rsumn (n : nat) (f : nat -> R) : R := rsum (map f (seq 0 n)).

(** rows of non-negative numbers that sum to one *)
Definition stochasticR (n : nat) (p : nat -> nat -> R) : Prop :=
  (forall i j, (i < n)%nat -> (j < n)%nat -> 0 <= p i j) /\
  (forall i, (i < n)%nat -> rsumn n (p i) = 1).

(** probability of going from i to j in k steps *)
Fixpoint steps (n : nat) (p : nat -> nat -> R) (k : nat) (i j : nat) : R :=
  match k with
  | O => if Nat.eqb i j then 1 else 0
  | S k => rsumn n (fun l => p i l * steps n p k l j)
  end.

(** probability of a step from i into block b *)
Definition into (n : nat) (p : nat -> nat -> R) (blk : nat -> nat) (i b : nat) : R :=
  rsumn n (fun j => if Nat.eqb (blk j) b then p i j else 0).
(** states of a block have the same probabilities of stepping into each block *)
Definition lumpableR (n : nat) (p : nat -> nat -> R) (blk : nat -> nat) : Prop :=
  forall i i' b, (i < n)%nat -> (i' < n)%nat -> blk i = blk i' -> into n p blk i b = into n p blk i' b.
