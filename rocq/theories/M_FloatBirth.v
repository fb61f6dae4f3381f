(** M_FloatBirth: birth and death chains in binary64 ([rnd], see Fl). *)
From Coq Require Import Reals List.
From Verif Require Import Fl M_Float M_FloatNorm.
Import ListNotations.
Local Open Scope R_scope.

(** numpy.isclose(x, 0.0): the default absolute tolerance 1e-08 as a double *)
Definition f_eps : R := rnd (1 / 100000000).
Definition f_zeroish (x : R) : Prop := Rabs x <= f_eps.
(** validation.py 1112-1119 and markov_chain.py 2201: the conditions under which birth_death goes on; [a] are the creation
    probabilities p, [b] the annihilation probabilities q *)
Definition f_bd_valid (n : nat) (a b : nat -> R) : Prop :=
  (forall i, (i < n)%nat -> is_double (a i) /\ 0 <= a i <= 1) /\ (forall i, (i < n)%nat -> is_double (b i) /\ 0 <= b i <= 1) /\
  f_zeroish (b 0%nat) /\ f_zeroish (a (n - 1)%nat) /\
  (forall i, (i < n)%nat -> rnd (b i + a i) <= 1).
(** generators.py 559 *)
Definition f_stay (a b : nat -> R) (i : nat) : R := rnd (rnd (1 - b i) - a i).
(** generators.py 561: the sum of three diagonals *)
Definition f_bd_sum (a b : nat -> R) : fmat := fun i j =>
  rnd (rnd ((if Nat.eqb j i then f_stay a b i else 0) + (if Nat.eqb j (S i) then a i else 0)) + (if Nat.eqb i (S j) then b i else 0)).
(** generators.py 562 *)
Definition f_snap (x : R) : R := if Rle_dec (Rabs x) f_eps then 0 else x.
(** generators.py 557-564 mc_birth_death: blank rows are filled and rows are divided by their sums *)
Definition f_birth_death (sm : list R -> R) (n : nat) (a b : nat -> R) : fmat :=
  f_shares sm n (fun i j => f_snap (f_bd_sum a b i j)).
