(** S_Struct: independent specifications of the structural notions (classes,
    closedness, periods, regularity).  Nothing here refers to the model. *)
From Coq Require Export Sorted.
From Verif Require Export S_Gen.

(** Each of the two states can be reached from the other. *)
Definition mutual (n : nat) (E : nat -> nat -> Prop) (i j : nat) : Prop := reach n E i j /\ reach n E j i.

(** A list of lists enumerates the strongly connected components of a graph on
    0..n-1 (in any order, members in any order). *)
Definition scc_enum (n : nat) (E : nat -> nat -> Prop) (comps : list (list nat)) : Prop :=
  partition_of n comps /\
  forall B i j, In B comps -> In i B -> j < n -> (In j B <-> mutual n E i j).

(** Order in which PyDTMC lists classes: larger ones first, then by least member. *)
Definition class_before (A B : list nat) : Prop :=
  length B < length A \/ (length A = length B /\ hd 0 A < hd 0 B).

(** No positive transition leaves the set. *)
Definition closed (n : nat) (E : nat -> nat -> Prop) (B : list nat) : Prop :=
  forall i j, In i B -> j < n -> E i j -> In j B.

(** Every state reaches every state. *)
Definition irreducible (n : nat) (E : nat -> nat -> Prop) : Prop :=
  forall i j, i < n -> j < n -> reach n E i j.

(** d is the greatest common divisor of the lengths of the closed walks at x. *)
Definition period_of (n : nat) (E : nat -> nat -> Prop) (x : nat) (d : Z) : Prop :=
  (0 <= d)%Z /\
  (forall k, walk n E k x x -> (d | Z.of_nat k)%Z) /\
  (forall e, (forall k, walk n E k x x -> (e | Z.of_nat k)%Z) -> (e | d)%Z).

(** Some power of the matrix has only positive entries: for some m every state is
    reached from every state in exactly m steps with positive probability. *)
Definition regular (n : nat) (P : mat) : Prop :=
  exists m, forall i j, i < n -> j < n -> (0 < kstep n P m i j)%Qc.

(** First-order stochastic dominance of rows: row k dominates row i. *)
Definition tail (n : nat) (P : mat) (i m : nat) : Qc := sumn n (fun j => if Nat.leb m j then mget P i j else 0q).
Definition dominated (n : nat) (P : mat) (i k : nat) : Prop := forall m, m < n -> (tail n P i m <= tail n P k m)%Qc.

(** Edges inside a class. *)
Definition inside (E : nat -> nat -> Prop) (B : list nat) (i j : nat) : Prop := In i B /\ In j B /\ E i j.

(** Partitions into runs of consecutive state positions. *)
Definition contiguous (n : nat) (parts : list (list nat)) : Prop :=
  concat parts = seq 0 n /\ forall B, In B parts -> B <> [].
