(** S_FloatRed: exact distributions and distances. *)
From Coq Require Import Reals List.
From Verif Require Import S_Float.
Import ListNotations.
Local Open Scope R_scope.

(** the distribution after k steps of the chain with probabilities [q], from [mu] *)
Fixpoint spread (n : nat) (q : nat -> nat -> R) (mu : nat -> R) (k : nat) : nat -> R :=
  match k with
  | O => mu
  | S k => fun j => rsumn n (fun i => spread n q mu k i * q i j)
  end.
(** sum of the absolute differences *)
Definition dist (n : nat) (f g : nat -> R) : R := rsumn n (fun j => Rabs (f j - g j)).
Definition distributionR (n : nat) (mu : nat -> R) : Prop := (forall j, (j < n)%nat -> 0 <= mu j) /\ rsumn n mu = 1.
