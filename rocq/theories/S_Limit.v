(** S_Limit: limits of sequences of rational numbers, and the probabilities of events
    within a number of steps, defined by summing over paths. *)
From Verif Require Export S_Measures.

Definition tends (f : nat -> Qc) (l : Qc) : Prop :=
  forall eps, (0 < eps)%Qc -> exists N, forall k, N <= k -> (Qcabs (f k - l) < eps)%Qc.
Definition grows (f : nat -> Qc) : Prop := forall b, exists N, forall k, N <= k -> (b < f k)%Qc.

(** The walk that starts in i does not visit T at the times 0, ..., k; or it does. *)
Definition never_by (n : nat) (P : mat) (T : list nat) (k i : nat) : Qc :=
  prob_paths n P k i (fun w => avoids T (i :: w)).
Definition hit_by (n : nat) (P : mat) (T : list nat) (k i : nat) : Qc :=
  prob_paths n P k i (fun w => negb (avoids T (i :: w))).
(** The expected number of times among 0, ..., k - 1 at which T has not been visited yet:
    the expectation of the smaller of k and the hitting time. *)
Definition mean_hit_by (n : nat) (P : mat) (T : list nat) (k i : nat) : Qc :=
  sumn k (fun t => never_by n P T t i).
(** The expectation of the smaller of k and the time of the first return to j. *)
Definition mean_return_by (n : nat) (P : mat) (k j : nat) : Qc :=
  sumn k (fun t => prob_paths n P t j (avoids [j])).
(** The first visited state of A or B is one of B. *)
Fixpoint first_in (A B : list nat) (w : list nat) : bool :=
  match w with
  | [] => false
  | x :: r => if memn x A then false else if memn x B then true else first_in A B r
  end.
Definition before_by (n : nat) (P : mat) (A B : list nat) (k i : nat) : Qc :=
  prob_paths n P k i (fun w => first_in A B (i :: w)).
(** The expected number of visits to j at the times 0, ..., k - 1, and at the times 1, ..., k. *)
Definition visits_by (n : nat) (P : mat) (k i j : nat) : Qc := sumn k (fun t => kstep n P t i j).
Definition visits_after (n : nat) (P : mat) (k i j : nat) : Qc := sumn k (fun t => kstep n P (S t) i j).
(** The walk that starts in i visits j at one of the times 1, ..., k. *)
Definition return_by (n : nat) (P : mat) (k i j : nat) : Qc :=
  prob_paths n P k i (fun w => negb (avoids [j] w)).
