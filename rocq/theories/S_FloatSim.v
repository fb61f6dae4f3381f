(** S_FloatSim: possible walks. *)
From Coq Require Import Reals List.
Import ListNotations.
Local Open Scope R_scope.

(** the walk starts at [cur], stays below [n], and every move has a positive probability *)
Fixpoint possible_walk (n : nat) (p : nat -> nat -> R) (cur : nat) (r : list nat) : Prop :=
  match r with
  | [] => True
  | s :: r => (s < n)%nat /\ 0 < p cur s /\ possible_walk n p s r
  end.
(** uniform draws *)
Definition draws (us : list R) : Prop := forall u, In u us -> 0 <= u < 1.
(** the walk has [k] moves, or stops where it first reaches the final state *)
Definition ends (final : option nat) (k : nat) (r : list nat) : Prop :=
  (length r <= k)%nat /\
  match final with
  | None => length r = k
  | Some f => ~ In f (removelast r) /\ (length r = k \/ exists r', r = r' ++ [f])
  end.
