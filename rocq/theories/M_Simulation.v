(** M_Simulation: model of the Markov chain part of /repo/pydtmc/simulations.py and
    of the methods of MarkovChain that call it.  Model only.

    States are positions 0..n-1 (labels already resolved).  The random generator is
    the sequence [u 0, u 1, ...] of its uniform draws; rng.choice(n, p=w) is numpy's
    inverse-cdf search on one such draw. *)
From Verif Require Export M_Measures.
From Coq Require Import Reals Qreals.
Close Scope Q_scope.
Close Scope R_scope.
Open Scope nat_scope.
Open Scope res_scope.

(** numpy RandomState.choice(n, size=1, p=w): cdf = cumsum(w) / cumsum(w)[-1];
    the result is cdf.searchsorted(u, side='right'), the first index whose cdf
    exceeds the draw.  (numpy also rejects p not summing to one within 1.5e-8: see
    M_Choice; rows summing exactly to one pass.)  [choice_from i k] looks at i, i+1, ..., i+k-1. *)
Definition cdf (n : nat) (w : vec) (i : nat) : Qc := (sumn (S i) (vget w) / sumn n (vget w))%Qc.
Fixpoint first_gt (c : nat -> Qc) (u : Qc) (i k : nat) : nat :=
  match k with
  | O => i
  | S k' => if Qcltb u (c i) then i else first_gt c u (S i) k'
  end.
Definition choice (n : nat) (w : vec) (u : Qc) : nat := first_gt (cdf n w) u 0 n.

(** simulations.py 214-233 mc_simulate: the loop, [k] iterations left, [t] draws
    consumed; p[current_state] beyond the last row is an IndexError. *)
Definition row (p : mat) (i : nat) : vec := nth i p [].
Fixpoint sim_loop (p : mat) (final : option nat) (u : nat -> Qc) (k t cur : nat) : res (list nat) :=
  match k with
  | O => Ok []
  | S k' =>
      guard Nat.ltb cur (nrows p) else IndexErr ;;
      let s := choice (nrows p) (row p cur) (u t) in
      if match final with Some f => Nat.eqb s f | None => false end then Ok [s]
      else rest <- sim_loop p final u k' (S t) s ;; Ok (s :: rest)
  end.
Definition mc_simulate (p : mat) (steps init : nat) (final : option nat) (u : nat -> Qc) : res (list nat) :=
  rest <- sim_loop p final u steps 0 init ;; Ok (init :: rest).

(** markov_chain.py 1809-1838 simulate: at least two steps; states in range (label
    validation); an omitted initial state is drawn by rng.randint(0, size) = [r]. *)
Definition simulate (p : mat) (steps : nat) (init : option nat) (final : option nat) (r : nat) (u : nat -> Qc) : res (list nat) :=
  guard Nat.leb 2 steps else ValueErr ;;
  let i := match init with Some i => i | None => Nat.modulo r (nrows p) end in
  guard Nat.ltb i (nrows p) else ValueErr ;;
  guard match final with Some f => Nat.ltb f (nrows p) | None => true end else ValueErr ;;
  mc_simulate p steps i final u.

(** markov_chain.py 1682-1707 next: one simulated step, last entry *)
Definition next (p : mat) (init : nat) (u : nat -> Qc) : res nat :=
  guard Nat.ltb init (nrows p) else ValueErr ;;
  v <- mc_simulate p 1 init None u ;; Ok (last v 0).

(** simulations.py 155-174 mc_predict: numpy.max and argwhere(d == max); more than
    one maximal entry gives None *)
Fixpoint lmax (l : list Qc) : Qc :=
  match l with [] => 0q | x :: l' => match l' with [] => x | _ => let m := lmax l' in if Qcltb m x then x else m end end.
Definition argmaxima (d : vec) : list nat := filter (fun j => Qceqb (vget d j) (lmax d)) (seq 0 (length d)).
Fixpoint predict_loop (p : mat) (k cur : nat) : res (option (list nat)) :=
  match k with
  | O => Ok (Some [])
  | S k' =>
      guard Nat.ltb cur (nrows p) else IndexErr ;;
      match argmaxima (row p cur) with
      | [] => Err ValueErr
      | [s] => r <- predict_loop p k' s ;; Ok (match r with Some w => Some (s :: w) | None => None end)
      | _ => Ok None
      end
  end.
(** markov_chain.py 1709-1738 predict: steps > 0 *)
Definition predict (p : mat) (steps init : nat) : res (option (list nat)) :=
  guard Nat.leb 1 steps else ValueErr ;;
  guard Nat.ltb init (nrows p) else ValueErr ;;
  r <- predict_loop p steps init ;; Ok (match r with Some w => Some (init :: w) | None => None end).

(** simulations.py 195-211 mc_sequence_probability.  log and exp are the real
    functions; wp = -inf is [None] and exp(-inf) = 0.  The walk is non-empty with
    positions in range (validate_sequence / validate_label). *)
Definition Qc2R (x : Qc) : R := Q2R x.
Fixpoint wp_loop (p : mat) (pairs : list (nat * nat)) (wp : R) : option R :=
  match pairs with
  | [] => Some wp
  | (i, j) :: rest =>
      if Qcltb 0 (mget p i j) then wp_loop p rest (wp + ln (Qc2R (mget p i j)))%R else None
  end.
Definition zip {A B} (l : list A) (l' : list B) : list (A * B) := combine l l'.
Definition sequence_probability (p : mat) (w : list nat) : R :=
  match wp_loop p (zip (removelast w) (tl w)) 0%R with Some x => exp x | None => 0%R end.

(** markov_chain.py 1175-1197 conditional_probabilities and 2094-2114
    transition_probability: a row / an entry of p *)
Definition conditional_probabilities (p : mat) (s : nat) : res vec :=
  guard Nat.ltb s (nrows p) else ValueErr ;; Ok (row p s).
Definition transition_probability (p : mat) (target origin : nat) : res Qc :=
  guard Nat.ltb target (nrows p) else ValueErr ;;
  guard Nat.ltb origin (nrows p) else ValueErr ;; Ok (mget p origin target).
