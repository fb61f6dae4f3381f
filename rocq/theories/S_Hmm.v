(** S_Hmm: specifications about hidden Markov models, independent of the model of
    the code.  A hidden Markov model has n states, k symbols, a transition matrix P,
    an emission matrix E and an initial distribution x of the state before the first
    transition: every observed symbol is emitted by the state reached by one more
    transition. *)
From Verif Require Export S_Chain.

(** Probability that the hidden states are w and the symbols obs, when the state
    before was i. *)
Fixpoint joint_from (P E : mat) (i : nat) (w obs : list nat) : Qc :=
  match w, obs with
  | s :: w', o :: obs' => (mget P i s * mget E s o * joint_from P E s w' obs')%Qc
  | _, _ => 1q
  end.
(** Joint probability of hidden path and symbols. *)
Definition joint (n : nat) (P E : mat) (x : vec) (w obs : list nat) : Qc :=
  sumn n (fun i => vget x i * joint_from P E i w obs)%Qc.
(** Sum of the joint probabilities over all hidden paths satisfying a condition. *)
Definition paths_total (n : nat) (P E : mat) (x : vec) (obs : list nat) (c : list nat -> bool) : Qc :=
  lsum (map (fun w => if c w then joint n P E x w obs else 0q) (words n (length obs))).
(** Likelihood of the symbols. *)
Definition likelihood (n : nat) (P E : mat) (x : vec) (obs : list nat) : Qc := paths_total n P E x obs (fun _ => true).
(** Conditional probability of hidden state i at time t (from 0) given all symbols. *)
Definition posterior (n : nat) (P E : mat) (x : vec) (obs : list nat) (t i : nat) : Qc :=
  (paths_total n P E x obs (fun w => Nat.eqb (nth t w 0%nat) i) / likelihood n P E x obs)%Qc.

(** A hidden Markov model proper. *)
Definition hmm_ok (n k : nat) (P E : mat) (x : vec) : Prop :=
  stochastic n P /\ row_stochastic n k E /\ distribution n x.
Definition obs_ok (k : nat) (obs : list nat) : Prop := forall o, In o obs -> o < k.

(** A hidden path of maximal joint probability. *)
Definition best_path (n : nat) (P E : mat) (x : vec) (obs w : list nat) : Prop :=
  In w (words n (length obs)) /\
  forall w', In w' (words n (length obs)) -> (joint n P E x w' obs <= joint n P E x w obs)%Qc.

(** Probability that the symbols obs are emitted by the next states, starting from i. *)
Definition future (n : nat) (P E : mat) (i : nat) (obs : list nat) : Qc :=
  lsum (map (fun w => joint_from P E i w obs) (words n (length obs))).

(** A simulated run: as many symbols as states, every hidden transition and every
    emission has positive probability. *)
Definition possible_run (n k : nat) (P E : mat) (states symbols : list nat) : Prop :=
  length states = length symbols /\
  (forall q, q < length states -> nth q states 0 < n /\ nth q symbols 0 < k /\ (0 < mget E (nth q states 0%nat) (nth q symbols 0%nat))%Qc) /\
  (forall q, S q < length states -> edge P (nth q states 0) (nth (S q) states 0)).

(** The first m values of f rescaled to sum to one (uniform if they are all zero). *)
Definition renorm (m : nat) (f : nat -> Qc) (j : nat) : Qc :=
  if Qceqb (sumn m f) 0 then (1 / Qcn m)%Qc else (f j / sumn m f)%Qc.

(** Number of positions t < m satisfying a condition, as a rational. *)
Definition occurrences (m : nat) (c : nat -> bool) : Qc := sumn m (fun t => if c t then 1q else 0q).
(** Observed transitions i -> j, and observations of symbol y in state i. *)
Definition seen_moves (s : list nat) (i j : nat) : Qc :=
  occurrences (length s - 1) (fun t => Nat.eqb (nth t s 0) i && Nat.eqb (nth (S t) s 0) j).
Definition seen_symbols (s o : list nat) (i y : nat) : Qc :=
  occurrences (length s) (fun t => Nat.eqb (nth t s 0) i && Nat.eqb (nth t o 0) y).

(** What predict('viterbi') maximises: the joint probability of the state i before
    the first transition, the hidden path w and the symbols, multiplied once more by
    the probability that i emits the first symbol. *)
Definition vit_score (P E : mat) (x : vec) (obs : list nat) (i : nat) (w : list nat) : Qc :=
  (vget x i * mget E i (hd 0%nat obs) * joint_from P E i w obs)%Qc.

(** One step of a simulation from state i to the pair (state, symbol) with uniform
    draws a and b: possible unless a draw is exactly zero. *)
Definition step_ok (n k : nat) (P E : mat) (i : nat) (sy : nat * nat) (a b : Qc) : Prop :=
  fst sy < n /\ snd sy < k /\
  ((0 < mget P i (fst sy))%Qc \/ (fst sy = 0 /\ a = 0q)) /\ ((0 < mget E (fst sy) (snd sy))%Qc \/ (snd sy = 0 /\ b = 0q)).
