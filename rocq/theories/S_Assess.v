(** S_Assess: specifications for the statistical tests, independent of the model. *)
From Verif Require Export S_Hmm.
From Coq Require Import Reals Qreals.
Close Scope Q_scope. Close Scope R_scope.
Open Scope nat_scope.

(** Number of times a, b, c are observed one after the other. *)
Definition seen_triples (s : list nat) (a b c : nat) : Qc :=
  occurrences (length s - 2) (fun t => Nat.eqb (nth t s 0) a && Nat.eqb (nth (S t) s 0) b && Nat.eqb (nth (S (S t)) s 0) c).
(** Number of departures from i, of arrivals in i, and the relative frequencies of the successors. *)
Definition departures (n : nat) (s : list nat) (i : nat) : Qc := sumn n (fun j => seen_moves s i j).
Definition arrivals (n : nat) (s : list nat) (i : nat) : Qc := sumn n (fun j => seen_moves s j i).
Definition frequencies (n : nat) (s : list nat) : mat := mk n n (fun i j => seen_moves s i j / departures n s i)%Qc.
(** Logarithm of the probability of a sequence, given its first state. *)
Definition log_probability (P : mat) (s : list nat) : R := ln (Q2R (this (path_prob P (hd 0%nat s) (tl s)))).
(** The likelihood-ratio statistic of the hypothesis that s was produced by P. *)
Definition likelihood_ratio (n : nat) (P : mat) (s : list nat) : R :=
  (2 * (log_probability (frequencies n s) s - log_probability P s))%R.
(** Every observed transition is possible. *)
Definition possible (n : nat) (P : mat) (s : list nat) : Prop := (0 < path_prob P (hd 0%nat s) (tl s))%Qc.

(** Tables of counts, with r rows and c columns: the counts expected under independence
    and Pearson's statistic, without and with the continuity correction. *)
Definition row_total (c : nat) (O : nat -> nat -> Qc) (i : nat) : Qc := sumn c (fun j => O i j).
Definition column_total (r : nat) (O : nat -> nat -> Qc) (j : nat) : Qc := sumn r (fun i => O i j).
Definition table_total (r c : nat) (O : nat -> nat -> Qc) : Qc := sumn r (row_total c O).
Definition expected_count (r c : nat) (O : nat -> nat -> Qc) (i j : nat) : Qc :=
  (row_total c O i * column_total r O j / table_total r c O)%Qc.
Definition pearson (r c : nat) (O : nat -> nat -> Qc) : Qc :=
  sumn r (fun i => sumn c (fun j => (O i j - expected_count r c O i j) * (O i j - expected_count r c O i j) / expected_count r c O i j))%Qc.
Definition pearson_corrected (r c : nat) (O : nat -> nat -> Qc) : Qc :=
  sumn r (fun i => sumn c (fun j =>
    let d := Qcmax 0 (Qcabs (O i j - expected_count r c O i j) - Q2Qc (1 # 2)) in d * d / expected_count r c O i j))%Qc.
(** No row and no column of the table is empty. *)
Definition full_table (r c : nat) (O : nat -> nat -> Qc) : Prop :=
  (forall i, i < r -> (0 < row_total c O i)%Qc) /\ (forall j, j < c -> (0 < column_total r O j)%Qc).
(** The rows of the table are proportional: row and column are independent. *)
Definition independent (r c : nat) (O : nat -> nat -> Qc) : Prop :=
  forall i j, i < r -> j < c -> (O i j * table_total r c O = row_total c O i * column_total r O j)%Qc.
