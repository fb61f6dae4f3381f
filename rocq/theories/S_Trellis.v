(** S_Trellis: what a trellis diagram of a hidden Markov model should show, independent of the model of the code. *)
From Verif Require Export S_Hmm S_Simulation.

(** Probability that the state emitting symbol number t is i, given the symbols up to and including number t. *)
Definition filtered (n : nat) (P E : mat) (x : vec) (obs : list nat) (t i : nat) : Qc :=
  (paths_total n P E x (firstn (S t) obs) (fun w => Nat.eqb (nth t w 0%nat) i) / likelihood n P E x (firstn (S t) obs))%Qc.
(** An edge between a state at column t and a state at column t + 1; backward diagrams draw it in the other direction. *)
Definition link (fw : bool) (i t j : nat) : (nat * nat) * (nat * nat) :=
  if fw then ((i, t), (j, S t)) else ((j, S t), (i, t)).
(** Step t of a path goes from i to j. *)
Definition path_step (path : list nat) (i t j : nat) : Prop := nth t path 0 = i /\ nth (S t) path 0 = j.
(** A hidden Markov model proper and draws as the generator makes them. *)
Definition runnable (n k : nat) (P E : mat) (c0 : Qc) (pr er : nat -> Qc) : Prop :=
  0 < n /\ stochastic n P /\ row_stochastic n k E /\ unit_draws pr /\ unit_draws er /\ (0 <= c0)%Qc /\ (c0 < 1q)%Qc.
(** The transitions that are possible are possible in both directions. *)
Definition two_way (n : nat) (P : mat) : Prop := forall i j, i < n -> j < n -> ((0 < mget P i j)%Qc <-> (0 < mget P j i)%Qc).
