(** S_Det: determinants, ranks and what they say about a chain. *)
From Verif Require Export M_Det S_Chain.
Open Scope nat_scope.

(** The determinant by expansion along the first column: the matrix without row i and
    column 0, with alternating signs. *)
Definition sgn (i : nat) : Qc := if Nat.even i then 1q else (- 1q)%Qc.
Definition skip (i r : nat) : nat := if Nat.ltb r i then r else S r.
Definition drop (i : nat) (A : nat -> nat -> Qc) : nat -> nat -> Qc := fun r c => A (skip i r) (S c).
Fixpoint laplace (n : nat) (A : nat -> nat -> Qc) : Qc :=
  match n with
  | 0 => 1q
  | S m => sumn (S m) (fun i => sgn i * A i 0%nat * laplace m (drop i A))%Qc
  end.
(** Rows, given by their numbers, none of which is a combination of the others. *)
Definition independent_rows (w : nat) (A : nat -> nat -> Qc) (l : list nat) : Prop :=
  forall x : nat -> Qc, (forall j, j < w -> lsum (map (fun i => x i * A i j)%Qc l) = 0q) -> forall i, In i l -> x i = 0q.
(** The rank is the number of rows in a basis of the rows: independent rows of which all
    others are combinations. *)
Definition is_rank (n w : nat) (A : nat -> nat -> Qc) (r : nat) : Prop :=
  exists l, NoDup l /\ length l = r /\ (forall i, In i l -> i < n) /\ independent_rows w A l
    /\ forall i, i < n -> exists y : nat -> Qc, forall j, j < w -> A i j = lsum (map (fun k => y k * A k j)%Qc l).
(** Different distributions of the state have different images. *)
Definition loses_nothing (n w : nat) (A : nat -> nat -> Qc) : Prop :=
  forall u v : nat -> Qc, (forall i, i < n -> (0 <= u i)%Qc) -> sumn n u = 1q -> (forall i, i < n -> (0 <= v i)%Qc) -> sumn n v = 1q ->
    (forall j, j < w -> sumn n (fun i => u i * A i j)%Qc = sumn n (fun i => v i * A i j)%Qc) -> forall i, i < n -> u i = v i.
