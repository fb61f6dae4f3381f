(** M_FloatSim: simulation of a chain in binary64 ([rnd], see Fl).  Overflow is left out. *)
From Coq Require Import Reals List ZArith Bool.
From Verif Require Import Fl M_Float.
Import ListNotations.
Local Open Scope R_scope.

(** numpy/random/mtrand.pyx kahan_sum: the sum so far and the compensation *)
Definition kahan_step (sc : R * R) (d : R) : R * R :=
  let y := rnd (d - snd sc) in
  let t := rnd (fst sc + y) in
  (t, rnd (rnd (t - fst sc) - y)).
Definition kahan_sum (l : list R) : R :=
  match l with [] => 0 | x :: r => fst (fold_left kahan_step r (x, 0)) end.

(** numpy.cumsum: entry j, added up from left to right *)
Fixpoint f_cumsum (w : nat -> R) (j : nat) : R :=
  match j with O => w 0%nat | S j' => rnd (f_cumsum w j' + w j) end.
(** cdf /= cdf[-1] *)
Definition f_cdf (n : nat) (w : nat -> R) (j : nat) : R := rnd (f_cumsum w j / f_cumsum w (n - 1)).

(** numpy/random/mtrand.pyx RandomState.choice(n, size=1, p=w), called at simulations.py 225, [u] the uniform draw:
    None if the probabilities do not sum to one within 2^-26 (the checks of signs and shapes always pass), otherwise
    cdf.searchsorted(u, side='right'), the first entry above u (a binary search; the entries do not decrease), or None
    for an index past the end *)
Definition f_choice (n : nat) (w : nat -> R) (u : R) : option nat :=
  if Rlt_dec (/ 67108864) (Rabs (rnd (kahan_sum (frow n w) - 1))) then None
  else find (fun j => if Rlt_dec u (f_cdf n w j) then true else false) (seq 0 n).

(** simulations.py 214-233 mc_simulate: the states after the first one, for the uniform draws [us] *)
Fixpoint f_simulate (n : nat) (p : fmat) (final : option nat) (cur : nat) (us : list R) : option (list nat) :=
  match us with
  | [] => Some []
  | u :: us' =>
      match f_choice n (p cur) u with
      | None => None
      | Some s =>
          if match final with Some f => Nat.eqb s f | None => false end then Some [s]
          else match f_simulate n p final s us' with None => None | Some r => Some (s :: r) end
      end
  end.
