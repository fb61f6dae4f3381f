(** S_FloatCanon: reordered states. *)
From Coq Require Import Reals List.
Import ListNotations.
Local Open Scope R_scope.

(** [q] is [p] with its n states listed in another order: [pos] sends each new index to an old one *)
Definition reordered (n : nat) (pos : nat -> nat) (p q : nat -> nat -> R) : Prop :=
  (forall i, (i < n)%nat -> (pos i < n)%nat) /\
  (forall i j, (i < n)%nat -> (j < n)%nat -> pos i = pos j -> i = j) /\
  (forall i j, (i < n)%nat -> (j < n)%nat -> q i j = p (pos i) (pos j)).
(** the recurrent states, from index t on, never lead to the transient ones, before t *)
Definition blocks (n t : nat) (q : nat -> nat -> R) : Prop := forall i j, (t <= i < n)%nat -> (j < t)%nat -> q i j = 0.
