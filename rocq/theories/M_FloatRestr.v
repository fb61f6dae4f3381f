(** M_FloatRestr: restricted hidden models in binary64 ([rnd], see Fl). *)
From Coq Require Import Reals List Arith Bool.
From Verif Require Import Fl M_Float M_FloatNorm.
Import ListNotations.
Local Open Scope R_scope.

(** p[ix_(rows, columns)]: generators.py 177 and 182 *)
Definition f_ix (rows columns : list nat) (m : fmat) : fmat := fun i j => m (nth i rows 0%nat) (nth j columns 0%nat).

(** generators.py 173 and 176-179, the transition matrix of hmm_restrict, for a model with [n] states *)
Definition f_restrict_p (sm : list R -> R) (n : nat) (ss : list nat) (p : fmat) : fmat :=
  if Nat.ltb (length ss) n then f_shares sm (length ss) (f_ix ss ss p) else p.

(** generators.py 174 and 181-184, the emission matrix: the number of symbols kept is compared with the number of states *)
Definition f_restrict_e (sm : list R -> R) (n : nat) (ss sy : list nat) (e : fmat) : fmat :=
  if Nat.ltb (length ss) n || Nat.ltb (length sy) n then f_shares sm (length sy) (f_ix ss sy e) else e.
