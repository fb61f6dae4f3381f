(** S_Assess2: what the tests report (the record of results is the model's), and the
    statistics of the individual tests. *)
From Verif Require Export M_Assess S_Assess S_Gen.
From Coq Require Import Reals Qreals.
Close Scope Q_scope. Close Scope R_scope.
Open Scope nat_scope.

(** The result names the statistic, the degrees of freedom and the p-value; the
    hypothesis is rejected exactly when the p-value is below the significance. *)
Definition decides (sig : Qc) (t : test) : Prop :=
  exists b, t_reject t = Some b /\ (b = true <-> exists p, t_pvalue t = Some p /\ (p < Q2R (this sig))%R).
Definition reports (cdf : chi2_cdf) (sig : Qc) (chi2 : ext) (dof : Z) (t : test) : Prop :=
  t_chi2 t = Some chi2 /\ t_dof t = Some dof /\
  t_pvalue t = match cdf chi2 dof with Some c => Some (1 - c)%R | None => None end /\ decides sig t.
(** No conclusion: None and nan everywhere. *)
Definition no_conclusion (t : test) : Prop :=
  t_reject t = None /\ t_pvalue t = None /\ t_chi2 t = None /\ t_dof t = None.
(** Arguments the tests accept. *)
Definition test_arguments (states : list string) (s : list nat) (sig : Qc) : Prop :=
  2 <= length states /\ names_ok (length states) states /\ 2 <= length s /\ (forall i, In i s -> i < length states) /\
  (0 < sig)%Qc /\ (sig <= Q2Qc (1 # 5))%Qc.

(** For each state, the counts of (previous, next) state. *)
Definition around (s : list nat) (state : nat) : nat -> nat -> Qc := fun a c => seen_triples s a state c.
Definition first_order_statistic (n : nat) (s : list nat) : Qc :=
  sumn n (fun b => if Nat.eqb n 2 then pearson_corrected n n (around s b) else pearson n n (around s b)).

(** The sequence divided into blocks of equal length: t is in block b.  The relative
    frequencies of the successors of i in the block (equal ones if i is not left there). *)
Definition in_block (len blocks b t : nat) : bool := Nat.ltb (b * len) ((t + 1) * blocks) && Nat.leb ((t + 1) * blocks) ((b + 1) * len).
Definition block_moves (s : list nat) (blocks b i j : nat) : Qc :=
  occurrences (length s - 1) (fun t => Nat.eqb (nth t s 0) i && in_block (length s) blocks b t && Nat.eqb (nth (S t) s 0) j).
Definition block_frequencies (n : nat) (s : list nat) (blocks i : nat) : nat -> nat -> Qc := fun b j =>
  let total := sumn n (fun j => block_moves s blocks b i j) in
  if Qceqb total 0 then (1 / Qcn n)%Qc else (block_moves s blocks b i j / total)%Qc.
Definition stationarity_statistic (n : nat) (s : list nat) (blocks : nat) : Qc :=
  sumn n (fun i => if Nat.eqb blocks 2 && Nat.eqb n 2 then pearson_corrected blocks n (block_frequencies n s blocks i) else pearson blocks n (block_frequencies n s blocks i)).

(** Number of possible transitions of a chain. *)
Definition possible_moves (n : nat) (P : mat) : nat :=
  list_sum (map (fun i => length (filter (fun j => negb (Qceqb (mget P i j) 0)) (seq 0 n))) (seq 0 n)).
(** A statistic that may be infinite is above a number. *)
Definition exceeds (x : ext) (r : R) : Prop := match x with EFin y => (r < y)%R | EInf => True end.
(** Arguments the comparison with a given chain of n states accepts. *)
Definition sequence_arguments (n : nat) (s : list nat) (sig : Qc) : Prop :=
  2 <= length s /\ (forall i, In i s -> i < n) /\ (0 < sig)%Qc /\ (sig <= Q2Qc (1 # 5))%Qc.

(** Several sequences: all observed transitions, and the number expected of i -> j in a
    sequence of the given length if its pairs of consecutive states have the proportions
    they have in all the sequences together. *)
Definition pooled_moves (seqs : list (list nat)) (i j : nat) : Qc := lsum (map (fun s => seen_moves s i j) seqs).
Definition total_moves (seqs : list (list nat)) : Qc := lsum (map (fun s => Qcn (length s - 1)) seqs).
Definition expected_pairs (seqs : list (list nat)) (s : list nat) (i j : nat) : Qc :=
  (Qcn (length s - 1) * pooled_moves seqs i j / total_moves seqs)%Qc.
(** Twice the sum of O ln (O / E) over the observed pairs of each sequence. *)
Definition real_sum (n : nat) (f : nat -> R) : R := fold_right Rplus 0%R (map f (seq 0 n)).
Definition o_ln_oe (o e : Qc) : R := if Qceqb o 0 then 0%R else (Q2R (this o) * ln (Q2R (this o) / Q2R (this e)))%R.
Definition homogeneity_statistic (n : nat) (seqs : list (list nat)) : R :=
  (2 * fold_right Rplus 0 (map (fun s => real_sum n (fun i => real_sum n (fun j => o_ln_oe (seen_moves s i j) (expected_pairs seqs s i j)))) seqs))%R.
(** All sequences have the same proportions of pairs of consecutive states. *)
Definition same_pair_proportions (n : nat) (seqs : list (list nat)) : Prop :=
  forall s s' i j, In s seqs -> In s' seqs -> i < n -> j < n ->
    (seen_moves s i j * Qcn (length s' - 1) = seen_moves s' i j * Qcn (length s - 1))%Qc.
(** Two of the sequences visit a common state. *)
Definition share_a_state (seqs : list (list nat)) : Prop :=
  exists i j x, i < length seqs /\ j < length seqs /\ i <> j /\ In x (nth i seqs []) /\ In x (nth j seqs []).
Definition sequences_arguments (states : list string) (seqs : list (list nat)) (sig : Qc) : Prop :=
  2 <= length states /\ names_ok (length states) states /\ 2 <= length seqs /\
  (forall s, In s seqs -> 2 <= length s /\ forall i, In i s -> i < length states) /\ (0 < sig)%Qc /\ (sig <= Q2Qc (1 # 5))%Qc.

(** The Markov property: occurrences of a b c and of a b among the first positions,
    the length being reduced to a multiple of three. *)
Definition sample_length (s : list nat) : nat := length s - length s mod 3 - 2.
Definition sample_triples (s : list nat) (a b c : nat) : Qc :=
  occurrences (sample_length s) (fun t => Nat.eqb (nth t s 0) a && Nat.eqb (nth (S t) s 0) b && Nat.eqb (nth (S (S t)) s 0) c).
Definition sample_pairs (s : list nat) (a b : nat) : Qc :=
  occurrences (sample_length s) (fun t => Nat.eqb (nth t s 0) a && Nat.eqb (nth (S t) s 0) b).
Definition expected_triples (n : nat) (s : list nat) (a b c : nat) : Qc := (sample_pairs s a b * mget (frequencies n s) b c)%Qc.
(** l lists without repetition the (first, second, third) states observed at the first m positions. *)
Definition lists_triples (m : nat) (s : list nat) (l : list (nat * nat * nat)) : Prop :=
  NoDup l /\ forall x, In x l <-> exists t, t < m /\ x = (nth t s 0, nth (S t) s 0, nth (S (S t)) s 0).
Definition lists_pairs (m : nat) (s : list nat) (l : list (nat * nat)) : Prop :=
  NoDup l /\ forall x, In x l <-> exists t, t < m /\ x = (nth t s 0, nth (S t) s 0).
Definition lists_states (s l : list nat) : Prop := NoDup l /\ forall x, In x l <-> In x s.
(** The statistic: the sum of (O - E)^2 / E over the observed triples. *)
Definition markov_statistic (n : nat) (s : list nat) (l : list (nat * nat * nat)) : Qc :=
  lsum (map (fun x => let '(a, b, c) := x in let o := sample_triples s a b c in let e := expected_triples n s a b c in ((o - e) * (o - e) / e)%Qc) l).
Definition equal_length (names : list string) : Prop := forall x y, In x names -> In y names -> String.length x = String.length y.

(** The same test at two levels of significance: everything but the decision is the same,
    and what is rejected at the lower level is rejected at the higher one. *)
Definition same_but_level (t t' : test) : Prop :=
  t_pvalue t = t_pvalue t' /\ t_chi2 t = t_chi2 t' /\ t_dof t = t_dof t' /\
  (t_reject t = Some true -> t_reject t' = Some true) /\ (t_reject t = None <-> t_reject t' = None).
