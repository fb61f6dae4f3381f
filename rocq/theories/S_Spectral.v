(** S_Spectral: the eigenvalues of a matrix, and two rates that are defined without them. *)
From Verif Require Export S_Entropy M_Spectral.
From Coq Require Import Reals Qreals.
Close Scope Q_scope. Close Scope R_scope.
Open Scope nat_scope.

Definition real (x : Qc) : R := Q2R (this x).
Definition cmat_of (P : mat) : cmat := fun i j => RtoC (real (mget P i j)).
(** ev lists the eigenvalues of A with their multiplicities: A is similar to an upper
    triangular matrix T that has ev on its diagonal (V is the change of basis, W its inverse). *)
Definition spectrum (n : nat) (A : cmat) (ev : list cx) : Prop :=
  length ev = n /\ exists V W T : cmat,
    ceq n (cmm n V W) cid /\ ceq n (cmm n W V) cid /\ ceq n (cmm n A V) (cmm n V T) /\
    (forall i j, i < n -> j < i -> T i j = zeroC) /\ (forall i, i < n -> T i i = nth i ev zeroC).

(** s is the exponential rate at which the distribution of the state at time k approaches pi:
    every larger number is a bound for the rate and no smaller one is. *)
Definition decay_bound (n : nat) (P : mat) (pi : vec) (rho : R) : Prop :=
  exists c : R, forall k i j, i < n -> j < n -> (Rabs (real (kstep n P k i j) - real (vget pi j)) <= c * rho ^ k)%R.
Definition decay_rate (n : nat) (P : mat) (pi : vec) (s : R) : Prop :=
  (0 <= s)%R /\ (forall rho, (s < rho)%R -> decay_bound n P pi rho) /\ (forall rho, (0 <= rho)%R -> decay_bound n P pi rho -> (s <= rho)%R).

(** Number of sequences of k states in which every move has a positive probability. *)
Fixpoint possible (P : mat) (l : list nat) : bool :=
  match l with
  | x :: ((y :: _) as rest) => Qcltb 0 (mget P x y) && possible P rest
  | _ => true
  end.
Definition paths (n : nat) (P : mat) (k : nat) : nat := length (filter (possible P) (words n k)).
(** r is the exponential rate at which that number grows. *)
Definition growth_bound (n : nat) (P : mat) (rho : R) : Prop :=
  exists c : R, forall k, (INR (paths n P k) <= c * rho ^ k)%R.
Definition growth_rate (n : nat) (P : mat) (r : R) : Prop :=
  (0 <= r)%R /\ (forall rho, (r < rho)%R -> growth_bound n P rho) /\ (forall rho, (0 <= rho)%R -> growth_bound n P rho -> (r <= rho)%R).
(** The matrix of zeros and ones that marks the possible moves. *)
Definition marks (P : mat) : cmat := fun i j => if Qcltb 0 (mget P i j) then oneC else zeroC.
(** t is the time after which a deviation that shrinks by the factor x at every step has
    shrunk by the factor e. *)
Definition is_timescale (x : R) (t : flt) : Prop :=
  (x = 0%R -> t = Fnum 0) /\ ((0 < x)%R -> exists y, t = Fnum y /\ (0 < y)%R /\ exp (- (1 / y)) = x).
