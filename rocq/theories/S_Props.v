(** S_Props: reversibility, symmetry and related notions. *)
From Verif Require Export S_Sens.

(** Probability of the first states l of the chain when the start is drawn from pi. *)
Definition seq_prob (P : mat) (pi : vec) (l : list nat) : Qc :=
  match l with [] => 1q | i :: w => (vget pi i * path_prob P i w)%Qc end.
(** The chain started from pi looks the same when time runs backwards. *)
Definition time_reversible (n : nat) (P : mat) (pi : vec) : Prop :=
  forall l, (forall x, In x l -> x < n) -> seq_prob P pi l = seq_prob P pi (rev l).
(** Every loop is as probable as the same loop in the opposite direction. *)
Definition loops_balanced (n : nat) (P : mat) : Prop :=
  forall i w, i < n -> (forall x, In x w -> x < n) -> path_prob P i (w ++ [i]) = path_prob P i (rev w ++ [i]).
Definition sym_matrix (n : nat) (P : mat) : Prop := forall i j, i < n -> j < n -> mget P i j = mget P j i.
Definition doubly_stochastic (n : nat) (P : mat) : Prop := forall j, j < n -> sumn n (fun i => mget P i j) = 1q.
Definition uniform (n : nat) : vec := repeat (1 / Qcn n)%Qc n.
(** Probability flow from i to j in one step of the stationary chain. *)
Definition flow (P : mat) (pi : vec) (i j : nat) : Qc := (vget pi i * mget P i j)%Qc.
(** The tolerance of numpy.allclose when it compares a with b. *)
Definition within (a b : Qc) : Prop := (Qcabs (a - b) <= atol + rtol * Qcabs b)%Qc.
(** The number of ordered pairs of different states with a transition. *)
Definition transitions_between (n : nat) (P : mat) : nat :=
  length (filter (fun ij => negb (Nat.eqb (fst ij) (snd ij)) && Qcltb 0 (mget P (fst ij) (snd ij))) (list_prod (seq 0 n) (seq 0 n))).
(** The pi of a chain with a single recurrent class. *)
Definition one_recurrent_class (n : nat) (P : mat) : Prop :=
  forall i j, recurrent n (edge P) i -> recurrent n (edge P) j -> reach n (edge P) i j.
