(** S_Gen: specifications used to state what the chain generators must return.
    They mention the chain record (the data), never the generators. *)
From Coq Require Export Permutation.
From Verif Require Export S_Chain M_Chain.

(** A well-formed chain object: at least [m] states, an exactly stochastic matrix
    and as many distinct, non-blank names. *)
Definition names_ok (n : nat) (l : list string) : Prop :=
  length l = n /\ NoDup l /\ (forall s, In s l -> nonblank s = true).
Definition valid_chain (n : nat) (c : chain) : Prop :=
  2 <= n /\ stochastic n (ch_p c) /\ names_ok n (ch_states c).

(** Names requested by the caller, or '1','2',...: *)
Definition names_requested (st : option (list string)) (n : nat) (l : list string) : Prop :=
  match st with
  | Some l' => l = l'
  | None => l = map dec (seq 1 n)
  end.

(** Number of balls/pairs satisfying a condition, as a rational. *)
Definition count (n : nat) (c : nat -> bool) : Qc := sumn n (fun a => if c a then 1q else 0q).
Definition count2 (n m : nat) (c : nat -> nat -> bool) : Qc :=
  sumn n (fun a => sumn m (fun b => if c a b then 1q else 0q)).

(** Ehrenfest urns: d balls, i of them (numbered 0..i-1) in the first urn; a ball
    drawn uniformly changes urn.  Probability that the first urn then holds j. *)
Definition ehrenfest_spec (d i j : nat) : Qc :=
  (count d (fun a => Nat.eqb (if Nat.ltb a i then i - 1 else i + 1) j) / Qcn d)%Qc.

(** Bernoulli-Laplace urns: two urns of d balls; the first holds i white balls
    (numbered 0..i-1), the second d-i white ones (0..d-i-1); one ball drawn
    uniformly from each urn, the two are exchanged. *)
Definition bernoulli_laplace_spec (d i j : nat) : Qc :=
  (count2 d d (fun a b =>
      Nat.eqb (i - (if Nat.ltb a i then 1 else 0) + (if Nat.ltb b (d - i) then 1 else 0)) j)
   / (Qcn d * Qcn d))%Qc.

(** Moran model with n individuals, i of type A with fitness r = 1 - s: an
    individual reproduces with probability proportional to its fitness; an
    offspring of A mutates with probability u, an offspring of the other type
    becomes A with probability v; a uniformly chosen individual is replaced. *)
Definition moran_offspring_A (n i : nat) (s u v : Qc) : Qc :=
  (((1 - s) * Qcn i * (1 - u) + Qcn (n - i) * v) / ((1 - s) * Qcn i + Qcn (n - i)))%Qc.
Definition moran_up (n i : nat) (s u v : Qc) : Qc := (Qcn (n - i) / Qcn n * moran_offspring_A n i s u v)%Qc.
Definition moran_down (n i : nat) (s u v : Qc) : Qc := (Qcn i / Qcn n * (1 - moran_offspring_A n i s u v))%Qc.

(** Total probability of moving from s into the set B. *)
Definition into (P : mat) (s : nat) (B : list nat) : Qc := lsum (map (fun t => mget P s t) B).

(** Ordinary lumpability: within each block, all states have the same total
    probability of moving into each block. *)
Definition lumpable (P : mat) (parts : list (list nat)) : Prop :=
  forall B B', In B parts -> In B' parts -> forall s t, In s B -> In t B -> into P s B' = into P t B'.

(** Partition of 0..n-1 (blocks non-empty, pairwise disjoint, covering). *)
Definition partition_of (n : nat) (parts : list (list nat)) : Prop :=
  (forall B, In B parts -> B <> []) /\ NoDup (concat parts) /\ (forall x, In x (concat parts) <-> x < n).

(** Number of cells of an n x n table satisfying a condition. *)
Definition count_cells (n : nat) (c : nat -> nat -> bool) : nat :=
  length (filter (fun ij => c (fst ij) (snd ij)) (list_prod (seq 0 n) (seq 0 n))).

(** Masks of random(): a cell is either fixed to a number or free (NaN).  A row is
    complete when its fixed entries already sum to 1 within the tolerance of
    numpy.isclose (absolute 1e-8 plus relative 1e-5). *)
Definition mask_sum (n : nat) (val : nat -> nat -> option Qc) (i : nat) : Qc :=
  sumn n (fun j => match val i j with Some x => x | None => 0q end).
Definition row_complete (n : nat) (val : nat -> nat -> option Qc) (i : nat) : bool :=
  Qcleb (Qcabs (mask_sum n val i - 1)) (Q2Qc (1 # 100000000) + Q2Qc (1 # 100000)).
Definition free_cells (n : nat) (val : nat -> nat -> option Qc) (i : nat) : nat :=
  length (filter (fun j => match val i j with None => true | Some _ => false end) (seq 0 n)).
(** How many free cells can be made zero when every incomplete row keeps one. *)
Definition zero_capacity (n : nat) (val : nat -> nat -> option Qc) : nat :=
  list_sum (map (fun i => if row_complete n val i then 0 else free_cells n val i - 1) (seq 0 n)).
(** What numpy guarantees about the random draws: the integer drawn for an
    incomplete row is a valid position among its free cells, the permutation is a
    permutation of 0..capacity-1, and the uniform draws are numbers in (0,1). *)
Definition draws_ok (n : nat) (val : nat -> nat -> option Qc) (pick : nat -> nat) (perm : list nat) (draw : nat -> nat -> Qc) : Prop :=
  (forall i, i < n -> row_complete n val i = false -> 0 < free_cells n val i -> pick i < free_cells n val i)
  /\ Permutation perm (seq 0 (zero_capacity n val))
  /\ (forall i j, i < n -> j < n -> (0 < draw i j < 1)%Qc).
