(** S_KL: what the divergence between a chain and its aggregation is. *)
From Verif Require Export S_Aggregate S_Entropy.
From Coq Require Import Reals Qreals.
Close Scope Q_scope. Close Scope R_scope.
Open Scope nat_scope.

(** a log2 (a / b), which is 0 when a is. *)
Definition alog2 (a b : Qc) : R := if Qceqb a 0 then 0%R else (Q2R (this a) * (ln (Q2R (this a) / Q2R (this b)) / ln 2))%R.
(** Divergence, in bits, between the laws of the first k states of two chains started from pi. *)
Definition path_divergence (n : nat) (P L : mat) (pi : vec) (k : nat) : R :=
  lsumR (map (fun w => alog2 (seq_prob P pi w) (seq_prob L pi w)) (words n k)).
(** The chain on the original states that follows Q between the groups and, inside a group, picks the state by its
    stationary probability. *)
Definition lifted (n : nat) (pi : vec) (G : list (list nat)) (Q L : mat) : Prop :=
  wf n n L /\
  forall a b i j, a < length G -> b < length G -> In i (nth a G []) -> In j (nth b G []) ->
    mget L i j = (mget Q a b * (vget pi j / mass pi (nth b G [])))%Qc.
(** The long-run probabilities of a chain, all positive. *)
Definition long_run (n : nat) (P : mat) (pi : vec) : Prop := distribution n pi /\ stationary n P pi /\ forall i, i < n -> (0 < vget pi i)%Qc.
