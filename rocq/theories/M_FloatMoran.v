(** M_FloatMoran: the Moran model and the gambler's ruin in binary64 ([rnd], see Fl). *)
From Coq Require Import Reals List.
From Verif Require Import Fl M_Float M_FloatNorm.
Import ListNotations.
Local Open Scope R_scope.

(** generators.py 898, 901-906: the probability of losing one *)
Definition f_pm (n : nat) (s u v : R) (i : nat) : R :=
  let ri := rnd (rnd (1 - s) * INR i) in
  let nmi := INR (n - i) in
  rnd (rnd (INR i / INR n) * rnd (rnd (rnd (ri * v) + rnd (nmi * rnd (1 - v))) / rnd (ri + nmi))).
(** generators.py 897, 901-907: the probability of gaining one *)
Definition f_pp (n : nat) (s u v : R) (i : nat) : R :=
  let ri := rnd (rnd (1 - s) * INR i) in
  let nmi := INR (n - i) in
  rnd (rnd (nmi / INR n) * rnd (rnd (rnd (ri * rnd (1 - u)) + rnd (nmi * v)) / rnd (ri + nmi))).
(** generators.py 889-911, before the division by the row sums *)
Definition f_moran_rows (n : nat) (s u v : R) : fmat := fun i j =>
  if Nat.eqb i 0 then (if Nat.eqb j 0 then 1 else 0)
  else if Nat.eqb i n then (if Nat.eqb j n then 1 else 0)
  else if Nat.eqb (S j) i then f_pm n s u v i
  else if Nat.eqb j i then rnd (rnd (1 - f_pm n s u v i) - f_pp n s u v i)
  else if Nat.eqb j (S i) then f_pp n s u v i
  else 0.
(** generators.py 887-930 mc_population_genetics_model for 'moran' *)
Definition f_moran (sm : list R -> R) (n : nat) (s u v : R) : fmat := f_normalize sm (n + 1) (f_moran_rows n s u v).

(** generators.py 828-842 mc_gamblers_ruin *)
Definition f_ruin (n : nat) (w : R) : fmat := fun i j =>
  if Nat.eqb i 0 then (if Nat.eqb j 0 then 1 else 0)
  else if Nat.eqb i (n - 1) then (if Nat.eqb j (n - 1) then 1 else 0)
  else if Nat.eqb (S j) i then rnd (1 - w)
  else if Nat.eqb j (S i) then w
  else 0.
