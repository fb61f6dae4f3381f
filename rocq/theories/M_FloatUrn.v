(** M_FloatUrn: urn models and bounded chains in binary64 ([rnd], see Fl).  Squaring goes through the C library's pow:
    [sq] is any function with the accuracy stated by [squaring]. *)
From Coq Require Import Reals List.
From Verif Require Import Fl M_Float.
Import ListNotations.
Local Open Scope R_scope.

(** x ** 2.0 at generators.py 1038 and 1040, external: a double between 0 and 1, within one unit in the last place *)
Definition squaring (sq : R -> R) : Prop := forall x, is_double x -> 0 <= x <= 1 ->
  is_double (sq x) /\ 0 <= sq x <= 1 /\ Rabs (sq x - x * x) <= 2 * uu * (x * x) + tiny.

(** generators.py 1026-1042 mc_urn_model for 'bernoulli-laplace', n elements in each urn *)
Definition f_laplace (sq : R -> R) (n : nat) : fmat := fun i j =>
  let dn := (n * 2)%nat in
  let q := rnd (INR i / INR dn) in
  if Nat.eqb i 0 then (if Nat.eqb j 1 then 1 else 0)
  else if Nat.eqb i dn then (if Nat.eqb j (dn - 1) then 1 else 0)
  else if Nat.eqb (S j) i then sq q
  else if Nat.eqb j i then rnd (rnd (2 * q) * rnd (1 - q))
  else if Nat.eqb j (S i) then sq (rnd (1 - q))
  else 0.
(** generators.py 1044-1058 mc_urn_model for 'ehrenfest' *)
Definition f_ehrenfest (n : nat) : fmat := fun i j =>
  let dn := (n * 2)%nat in
  let q := rnd (INR i / INR dn) in
  if Nat.eqb i 0 then (if Nat.eqb j 1 then 1 else 0)
  else if Nat.eqb i dn then (if Nat.eqb j (dn - 1) then 1 else 0)
  else if Nat.eqb (S j) i then q
  else if Nat.eqb j (S i) then rnd (1 - q)
  else 0.

(** validation.py 146-166: the boundary conditions *)
Inductive f_bound := Semi (b : R) | Absorbing | Reflecting.
(** validation.py 150-164: the accepted ones *)
Definition good_bound (c : f_bound) : Prop := match c with Semi b => is_double b /\ 0 <= b <= 1 | _ => True end.
(** generators.py 579-594: the new first row *)
Definition f_first (c : f_bound) (j : nat) : R :=
  match c with
  | Semi b => if Nat.eqb j 0 then rnd (1 - b) else if Nat.eqb j 1 then b else 0
  | Absorbing => if Nat.eqb j 0 then 1 else 0
  | Reflecting => if Nat.eqb j 1 then 1 else 0
  end.
(** generators.py 579-594: the new last row *)
Definition f_last (n : nat) (c : f_bound) (j : nat) : R :=
  match c with
  | Semi b => if Nat.eqb j (n - 1) then b else if Nat.eqb j (n - 2) then rnd (1 - b) else 0
  | Absorbing => if Nat.eqb j (n - 1) then 1 else 0
  | Reflecting => if Nat.eqb j (n - 2) then 1 else 0
  end.
(** generators.py 572-602 mc_bounded *)
Definition f_bounded (n : nat) (p : fmat) (c : f_bound) : fmat := fun i j =>
  if Nat.eqb i (n - 1) then f_last n c j else if Nat.eqb i 0 then f_first c j else p i j.
