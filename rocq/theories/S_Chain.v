(** S_Chain: independent specifications about transition matrices.  Nothing
    here refers to the model of the code. *)
From Verif Require Export Mat.

(** A probability vector of length n. *)
Definition distribution (n : nat) (v : vec) : Prop :=
  length v = n /\ (forall i, i < n -> (0 <= vget v i)%Qc) /\ sumn n (vget v) = 1q.

(** A (rectangular) row-stochastic matrix, n rows and m columns. *)
Definition row_stochastic (n m : nat) (P : mat) : Prop :=
  wf n m P /\ (forall i j, i < n -> j < m -> (0 <= mget P i j)%Qc)
  /\ (forall i, i < n -> sumn m (fun j => mget P i j) = 1q).

(** A transition matrix on n states. *)
Definition stochastic (n : nat) (P : mat) : Prop := row_stochastic n n P.

(** Positive-probability transition. *)
Definition edge (P : mat) (i j : nat) : Prop := (0 < mget P i j)%Qc.

(** Walks of k transitions in a graph given by an edge relation on 0..n-1. *)
Inductive walk (n : nat) (E : nat -> nat -> Prop) : nat -> nat -> nat -> Prop :=
| walk_nil i : i < n -> walk n E 0 i i
| walk_cons k i j l : i < n -> j < n -> E i j -> walk n E k j l -> walk n E (S k) i l.

Definition reach (n : nat) (E : nat -> nat -> Prop) (i j : nat) : Prop := exists k, walk n E k i j.

(** All words of length k over the states 0..n-1. *)
Fixpoint words (n k : nat) : list (list nat) :=
  match k with
  | O => [[]]
  | S k' => flat_map (fun x => map (cons x) (words n k')) (seq 0 n)
  end.

(** Probability of following the path i -> w1 -> w2 -> ... when starting in i. *)
Fixpoint path_prob (P : mat) (i : nat) (w : list nat) : Qc :=
  match w with
  | [] => 1q
  | x :: w' => (mget P i x * path_prob P x w')%Qc
  end.

(** Last state of the path i, w1, ..., wk. *)
Definition path_end (i : nat) (w : list nat) : nat := last w i.

(** Total probability, over all paths of k transitions starting at i and
    satisfying a (decidable) condition. *)
Definition prob_paths (n : nat) (P : mat) (k i : nat) (c : list nat -> bool) : Qc :=
  lsum (map (fun w => if c w then path_prob P i w else 0q) (words n k)).

(** Probability of being in j after k transitions when starting in i. *)
Definition kstep (n : nat) (P : mat) (k i j : nat) : Qc :=
  prob_paths n P k i (fun w => Nat.eqb (path_end i w) j).

(** Exact stationarity. *)
Definition stationary (n : nat) (P : mat) (v : vec) : Prop :=
  length v = n /\ forall j, j < n -> sumn n (fun i => vget v i * mget P i j)%Qc = vget v j.
