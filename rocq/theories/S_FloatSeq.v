(** S_FloatSeq: probability of a walk; accurate logarithms and exponentials. *)
From Coq Require Import Reals List.
From Verif Require Import Fl.
Import ListNotations.
Local Open Scope R_scope.

(** product of the probabilities of the moves *)
Fixpoint walkR (p : nat -> nat -> R) (w : list nat) : R :=
  match w with
  | i :: (j :: _) as r => p i j * walkR p r
  | _ => 1
  end.
(** some move of the walk has probability zero *)
Fixpoint blocked (p : nat -> nat -> R) (w : list nat) : Prop :=
  match w with
  | i :: (j :: _) as r => p i j <= 0 \/ blocked p r
  | _ => False
  end.
(** results within two units in the last place *)
Definition log_ok (lg : R -> R) : Prop := forall x, is_double x -> 0 < x <= 1 -> is_double (lg x) /\ Rabs (lg x - ln x) <= 4 * uu * Rabs (ln x).
Definition exp_ok (ex : R -> R) : Prop := forall x, is_double x -> x <= 0 -> Rabs (ex x - exp x) <= 4 * uu * exp x + 4 * tiny.
