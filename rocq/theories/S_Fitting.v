(** S_Fitting: specifications for fitted chains. *)
From Verif Require Export S_Simulation S_Hmm.
(** Product of the first m values. *)
Fixpoint prodn (m : nat) (f : nat -> Qc) : Qc := match m with O => 1q | S k => (prodn k f * f k)%Qc end.
(** Density, up to a constant, of independent Dirichlet priors on the rows of P, the
    prior of row i having parameters a i 0, ..., a i (n-1). *)
Definition prior (n : nat) (a : nat -> nat -> nat) (P : mat) : Qc :=
  prodn n (fun i => prodn n (fun j => Qcpower (mget P i j) (a i j - 1))).
(** P maximises the probability of the observed sequence among stochastic matrices. *)
Definition max_likelihood (n : nat) (s : list nat) (P : mat) : Prop :=
  forall P', stochastic n P' -> (walk_prob P' s <= walk_prob P s)%Qc.
(** P maximises the posterior density given the observed sequence. *)
Definition posterior_mode (n : nat) (a : nat -> nat -> nat) (s : list nat) (P : mat) : Prop :=
  forall P', stochastic n P' -> (prior n a P' * walk_prob P' s <= prior n a P * walk_prob P s)%Qc.
(** additive smoothing: counts plus c, rescaled *)
Definition smoothed (c : Qc) (n : nat) (s : list nat) (i j : nat) : Qc :=
  ((seen_moves s i j + c) / sumn n (fun k => seen_moves s i k + c))%Qc.
