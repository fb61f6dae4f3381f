(** S_Bw: specification of expectation-maximisation for hidden Markov models,
    independent of the model of the code.  A full run is the list l of the state
    before the first transition followed by the states that emit the symbols. *)
From Verif Require Export S_Hmm.

(** Probability that the full run is l and the symbols are obs. *)
Definition full_prob (P E : mat) (x : vec) (obs l : list nat) : Qc :=
  match l with [] => 0q | i :: w => (vget x i * joint_from P E i w obs)%Qc end.
(** Conditional expectation, given the symbols obs, of a function of the full run. *)
Definition hidden_mean (n : nat) (P E : mat) (x : vec) (obs : list nat) (f : list nat -> Qc) : Qc :=
  (lsum (map (fun l => full_prob P E x obs l * f l) (words n (S (length obs)))) / likelihood n P E x obs)%Qc.
(** Expected number of transitions u -> v, and of emissions of y in state u. *)
Definition mean_moves (n : nat) (P E : mat) (x : vec) (obs : list nat) (u v : nat) : Qc :=
  hidden_mean n P E x obs (fun l => seen_moves l u v).
Definition mean_symbols (n : nat) (P E : mat) (x : vec) (obs : list nat) (u y : nat) : Qc :=
  hidden_mean n P E x obs (fun l => seen_symbols (tl l) obs u y).

(** A sequence that can be decoded: no symbol has, given the ones before it, a
    probability below 1e-300. *)
Definition tractable (n : nat) (P E : mat) (x : vec) (obs : list nat) : Prop :=
  forall t, t < length obs ->
    (Q2Qc (1 # Pos.pow 10 300) * likelihood n P E x (firstn t obs) <= likelihood n P E x (firstn (S t) obs))%Qc.

(** The new matrices are the expected counts over the sequences D, every row
    divided by its positive sum. *)
Definition em_step (n k : nat) (x : vec) (D : list (list nat)) (P E P' E' : mat) : Prop :=
  let A u v := lsum (map (fun s => mean_moves n P E x s u v) D) in
  let B u y := lsum (map (fun s => mean_symbols n P E x s u y) D) in
  (forall u, u < n -> (0 < sumn n (A u))%Qc /\ forall v, v < n -> mget P' u v = (A u v / sumn n (A u))%Qc) /\
  (forall u, u < n -> (0 < sumn k (B u))%Qc /\ forall y, y < k -> mget E' u y = (B u y / sumn k (B u))%Qc).

Definition prod_list (l : list Qc) : Qc := fold_right Qcmult 1q l.
(** Likelihood of several independent sequences. *)
Definition total_likelihood (n : nat) (P E : mat) (x : vec) (D : list (list nat)) : Qc :=
  prod_list (map (likelihood n P E x) D).

(** The sequences of a list that can be decoded. *)
Definition usable (n : nat) (P E : mat) (x : vec) (seqs D : list (list nat)) : Prop :=
  exists f, D = filter f seqs /\ forall s, In s seqs -> (f s = true <-> tractable n P E x s).
(** What one iteration does. *)
Definition iteration (n k : nat) (x : vec) (seqs : list (list nat)) (P E P' E' : mat) : Prop :=
  hmm_ok n k P' E' x /\
  exists D, usable n P E x seqs D /\ em_step n k x D P E P' E' /\ D <> [] /\
    (0 < total_likelihood n P E x D)%Qc /\ (total_likelihood n P E x D <= total_likelihood n P' E' x D)%Qc.

(** The rows of M are the counts C, divided by their positive sums. *)
Definition normalised_counts (n m : nat) (C : nat -> nat -> Qc) (M : mat) : Prop :=
  forall u, u < n -> (0 < sumn m (C u))%Qc /\ forall v, v < m -> mget M u v = (C u v / sumn m (C u))%Qc.
