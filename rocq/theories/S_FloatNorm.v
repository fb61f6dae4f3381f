(** S_FloatNorm: the shares a user expects of a row of weights, and the counts of a sequence. *)
From Coq Require Import Reals List.
From Verif Require Import S_Float.
Import ListNotations.
Local Open Scope R_scope.

(** weight j of k over the total, equal shares when all the weights are zero *)
Definition is_share (k : nat) (w : nat -> R) (j : nat) (x : R) : Prop :=
  ((forall l, (l < k)%nat -> w l = 0) /\ x = / INR k) \/
  ((exists l, (l < k)%nat /\ 0 < w l) /\ x * rsumn k w = w j).

(** how often b follows a immediately in s *)
Fixpoint follows (a b : nat) (s : list nat) : nat :=
  match s with
  | x :: (y :: _) as t => ((if Nat.eqb x a then if Nat.eqb y b then 1 else 0 else 0) + follows a b t)%nat
  | _ => 0%nat
  end.

(** how often a and b stand at the same position of the two lists *)
Fixpoint together (a b : nat) (s t : list nat) : nat :=
  match s, t with
  | x :: s, y :: t => ((if Nat.eqb x a then if Nat.eqb y b then 1 else 0 else 0) + together a b s t)%nat
  | _, _ => 0%nat
  end.
