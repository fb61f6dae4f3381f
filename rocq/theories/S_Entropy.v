(** S_Entropy: entropies of the chain, as sums over sequences of states. *)
From Verif Require Export S_Props.
From Coq Require Import Reals Qreals.
Close Scope Q_scope. Close Scope R_scope.
Open Scope nat_scope.

(** x ln x, which is 0 at 0. *)
Definition xlogx (x : Qc) : R := if Qceqb x 0 then 0%R else (Q2R (this x) * ln (Q2R (this x)))%R.
Definition lsumR (l : list R) : R := fold_right Rplus 0%R l.
(** Entropy of the first k states of the chain when the start is drawn from pi. *)
Definition block_entropy (n : nat) (P : mat) (pi : vec) (k : nat) : R :=
  (- lsumR (map (fun l => xlogx (seq_prob P pi l)) (words n k)))%R.
(** r is the entropy rate: one more state adds r to the entropy of the first k + 1 states. *)
Definition entropy_per_step (n : nat) (P : mat) (pi : vec) (r : R) : Prop :=
  forall k, (block_entropy n P pi (S (S k)) - block_entropy n P pi (S k) = r)%R.
(** From every state that is visited in the long run the next state is certain. *)
Definition deterministic (n : nat) (P : mat) (pi : vec) : Prop :=
  forall i j, i < n -> j < n -> (0 < vget pi i)%Qc -> mget P i j = 0q \/ mget P i j = 1q.
(** v is a positive eigenvector of the adjacency matrix, for the eigenvalue lam. *)
Definition adjacency_eigen (n : nat) (P : mat) (lam : R) (v : nat -> R) : Prop :=
  (0 < lam)%R /\ (forall i, i < n -> (0 < v i)%R) /\
  forall i, i < n -> lsumR (map (fun j => if Qcltb 0 (mget P i j) then v j else 0%R) (seq 0 n)) = (lam * v i)%R.
