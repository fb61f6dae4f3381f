(** M_FloatHmm: simulation of a hidden Markov model in binary64 ([rnd], see Fl).  Overflow is left out. *)
From Coq Require Import Reals List.
From Verif Require Import Fl M_Float M_FloatSim.
Import ListNotations.
Local Open Scope R_scope.

(** simulations.py 130-135 (and 138-143 for symbols): the entries n-2, ..., 0 of the row of cumulative probabilities
    (lines 119-121, divided by the last entry) are tried in this order; [j] is one more than the next entry to try *)
Fixpoint pick_go (n : nat) (w : nat -> R) (u : R) (j : nat) : nat :=
  match j with
  | O => 0%nat
  | S j' => if Rlt_dec (f_cdf n w j') u then j else pick_go n w u j'
  end.
Definition f_pick (n : nat) (w : nat -> R) (u : R) : nat := pick_go n w u (n - 1).

Definition hits (target : option nat) (s : nat) : bool := match target with Some f => Nat.eqb s f | None => false end.

(** simulations.py 127-151: the states and symbols after the first ones, for the draws (pr_i, er_i) *)
Fixpoint f_hmm_loop (n k : nat) (p e : fmat) (final_state final_symbol : option nat) (cur : nat) (us : list (R * R)) : list (nat * nat) :=
  match us with
  | [] => []
  | (u, v) :: us' =>
      let state := f_pick n (p cur) u in
      let symbol := f_pick k (e state) v in
      (state, symbol) ::
        (if (hits final_state state || hits final_symbol symbol)%bool then []
         else f_hmm_loop n k p e final_state final_symbol state us')
  end.
(** simulations.py 109-153 hmm_simulate: the first symbol is drawn by rng.choice, None is its ValueError *)
Definition f_hmm_simulate (n k : nat) (p e : fmat) (initial : nat) (final_state final_symbol : option nat) (u0 : R)
    (us : list (R * R)) : option (list (nat * nat)) :=
  match f_choice k (e initial) u0 with
  | None => None
  | Some y => Some ((initial, y) :: f_hmm_loop n k p e final_state final_symbol initial us)
  end.
