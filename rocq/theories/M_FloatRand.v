(** M_FloatRand: random chains in binary64 ([rnd], see Fl). *)
From Coq Require Import Reals List Bool.
From Verif Require Import Fl M_Float.
Import ListNotations.
Local Open Scope R_scope.

(** generators.py 973 and 976, p[i, columns]: the entries of a row in the chosen columns *)
Definition f_pick (n : nat) (sel : nat -> bool) (v : nat -> R) : list R := map v (filter sel (seq 0 n)).

(** generators.py 936 (and 139), the row sum of the mask: [free] are the columns without a value, which nansum counts as zero *)
Definition f_given (sm : list R -> R) (n : nat) (free : nat -> bool) (v : nat -> R) : R :=
  sm (frow n (fun j => if free j then 0 else v j)).

(** generators.py 970-977 (and 123-130 for both matrices of hmm_random), one row of mc_random: [v] holds the given values and, in the [free] columns, the numbers drawn.
    Which columns are made zero beforehand (generators.py 949-964) is modelled apart: those are not free and hold 0. *)
Definition f_random_row (sm : list R -> R) (n : nat) (free : nat -> bool) (v : nat -> R) : nat -> R :=
  let s := sm (f_pick n free v) in
  if Rlt_dec 0 s then
    let si := sm (f_pick n (fun j => negb (free j)) v) in
    fun j => if free j then rnd (v j * rnd (rnd (1 - si) / s)) else v j
  else v.
