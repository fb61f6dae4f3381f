(** S_FloatPredict: walks of most likely moves. *)
From Coq Require Import Reals List.
Import ListNotations.
Local Open Scope R_scope.

(** [s] beats every other state by more than [gap] *)
Definition best_by (gap : R) (n : nat) (d : nat -> R) (s : nat) : Prop :=
  (s < n)%nat /\ forall j, (j < n)%nat -> j <> s -> d j + gap < d s.
(** the states [r] visited after [cur], each beating the others by more than [gap] *)
Fixpoint best_walk (gap : R) (n : nat) (q : nat -> nat -> R) (cur : nat) (r : list nat) : Prop :=
  match r with
  | [] => True
  | s :: r => best_by gap n (q cur) s /\ best_walk gap n q s r
  end.
(** two states are the most likely ones, up to [gap] *)
Definition tied (gap : R) (n : nat) (d : nat -> R) : Prop :=
  exists s t, (s < n)%nat /\ (t < n)%nat /\ s <> t /\ forall j, (j < n)%nat -> d j <= d s + gap /\ d j <= d t + gap.
