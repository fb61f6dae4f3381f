(** S_FloatSub: closed sets of states. *)
From Coq Require Import Reals List.
Import ListNotations.
Local Open Scope R_scope.

(** [idx] lists some of the n states, once each, and no state of it leads outside *)
Definition closed_states (n : nat) (p : nat -> nat -> R) (idx : list nat) : Prop :=
  NoDup idx /\ (forall i, In i idx -> (i < n)%nat) /\ (forall i j, In i idx -> (j < n)%nat -> ~ In j idx -> p i j = 0).
