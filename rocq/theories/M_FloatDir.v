(** M_FloatDir: chains drawn from a Dirichlet process, in binary64 ([rnd], see Fl).  The draws are arguments; 0 / 0 (a row
    of draws that are all zero) is not represented, see M_FloatNorm. *)
From Coq Require Import Reals List.
From Verif Require Import Fl M_Float M_FloatNorm.
Import ListNotations.
Local Open Scope R_scope.

(** generators.py 799-805: the loop of _gem_allocation; [a] is allocated_probability *)
Fixpoint f_gem (a : R) (g : list R) : list R :=
  match g with
  | [] => []
  | x :: g => let w := rnd (rnd (1 - a) * x) in w :: f_gem (rnd (a + w)) g
  end.
Definition f_gem_rows (n : nat) (draws : fmat) : fmat := fun i j => nth j (f_gem 0 (frow n (draws i))) 0.
(** numpy.fliplr, generators.py 816 *)
Definition f_flip (n : nat) (p : fmat) : fmat := fun i j => p i (n - 1 - j)%nat.
(** generators.py 820: the draws added to the diagonal; adding zero elsewhere is exact *)
Definition f_add_diag (d : nat -> R) (p : fmat) : fmat := fun i j => if Nat.eqb i j then rnd (p i j + d i) else p i j.
(** generators.py 795-825 mc_dirichlet_process; [diag] are the draws for the diagonal when a bias factor is given *)
Definition f_dirichlet (sm : list R -> R) (n : nat) (draws : fmat) (shift : bool) (diag : option (nat -> R)) : fmat :=
  let p := f_normalize sm n (f_gem_rows n draws) in
  let p := if shift then f_flip n p else p in
  match diag with
  | None => p
  | Some d => f_normalize sm n (f_add_diag d p)
  end.
(** the draws of rng.beta at generators.py 812: doubles between 0 and 1, not all of them zero in any row *)
Definition drawn (n : nat) (draws : fmat) : Prop :=
  (forall i j, (i < n)%nat -> (j < n)%nat -> is_double (draws i j) /\ 0 <= draws i j <= 1) /\
  (forall i, (i < n)%nat -> exists j, (j < n)%nat /\ 0 < draws i j).
