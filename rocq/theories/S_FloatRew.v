(** S_FloatRew: the exact expected rewards. *)
From Coq Require Import Reals List.
From Verif Require Import S_Float.
Import ListNotations.
Local Open Scope R_scope.

(** expected reward collected at time t, from state i *)
Definition reward_at (n : nat) (q : nat -> nat -> R) (r : nat -> R) (t i : nat) : R := rsumn n (fun j => steps n q t i j * r j).
(** expected total of the rewards at the times 0, ..., k *)
Definition total_reward (n : nat) (q : nat -> nat -> R) (r : nat -> R) (k i : nat) : R := rsumn (k + 1) (fun t => reward_at n q r t i).
