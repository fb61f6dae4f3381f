(** P_Assess: properties C116-C121, the statistical tests. *)
From Verif Require Import L_Assess7.
From Coq Require Import Reals Qreals Lra.
Close Scope Q_scope. Close Scope R_scope.
Open Scope nat_scope.
Open Scope res_scope.

(** * C116: compatibility of a sequence with a chain *)
(** Sequences that end where they began: the likelihood-ratio statistic.  Missing: the other sequences (below). *)
Theorem C116_compatibility_partial : forall cdf mc s sig t, let P := ch_p mc in let n := length (ch_p mc) in stochastic n P ->
  assess_theoretical_compatibility cdf mc s sig = Ok t ->
  sequence_arguments n s sig /\
  (~ possible n P s -> t_reject t = Some true /\ t_pvalue t = Some 0%R /\ t_chi2 t = None) /\
  (possible n P s -> (0 <= likelihood_ratio n P s)%R /\
     (likelihood_ratio n P s = 0%R <-> forall i j, i < n -> j < n -> seen_moves s i j = (departures n s i * mget P i j)%Qc) /\
     (hd 0%nat s = last s 0%nat -> reports cdf sig (EFin (likelihood_ratio n P s)) (Z.of_nat (possible_moves n P) - Z.of_nat n) t) /\
     (hd 0%nat s <> last s 0%nat -> exists x, exceeds x (likelihood_ratio n P s) /\ reports cdf sig x (Z.of_nat (possible_moves n P) - Z.of_nat n) t)).
Proof. exact compat_spec. Qed.
Example C116_compatibility_ex : forall cdf, let mc := mkchain ex_half ["a"; "b"]%string in let s := [0; 0; 1; 1; 0] in
  stochastic 2 (ch_p mc) /\ (exists t, assess_theoretical_compatibility cdf mc s (Q2Qc (1 # 20)) = Ok t) /\ possible 2 (ch_p mc) s /\ hd 0%nat s = last s 0%nat /\
  (exists t, assess_theoretical_compatibility cdf mc [0; 0; 1] (Q2Qc (1 # 20)) = Ok t).
Proof.
  intros cdf mc s. split; [apply stochasticb_ok; vm_compute; reflexivity|]. split; [apply compat_accepts; apply seq_args_dec; vm_compute; reflexivity|]. split; [vm_compute; reflexivity|]. split; [reflexivity|].
  apply compat_accepts; apply seq_args_dec; vm_compute; reflexivity.
Qed.
Print Assumptions C116_compatibility_partial.
(** A sequence of probability 1/2 whose statistic is infinite. *)
Theorem C116_infinite_refuted : forall cdf, exists mc s t, valid_chain 2 mc /\ path_prob (ch_p mc) (hd 0%nat s) (tl s) = Q2Qc (1 # 2) /\
  assess_theoretical_compatibility cdf mc s (Q2Qc (1 # 20)) = Ok t /\ t_chi2 t = Some EInf.
Proof. exact compat_infinite. Qed.
Example C116_infinite_ex : departures 2 [0; 1; 1; 1] 0 = 1q /\ arrivals 2 [0; 1; 1; 1] 0 = 0q.
Proof. split; apply Qceqb_eq; vm_compute; reflexivity. Qed.
Print Assumptions C116_infinite_refuted.

(** * C117: homogeneity of several sequences *)
(** What is compared are the proportions of the pairs of consecutive states.  Missing: the claim about the processes (below). *)
Theorem C117_homogeneity_partial : forall cdf states seqs sig t, let n := length states in assess_homogeneity cdf states seqs sig = Ok t ->
  (~ share_a_state seqs -> no_conclusion t) /\
  (share_a_state seqs -> reports cdf sig (EFin (homogeneity_statistic n seqs)) (Z.of_nat (n * (n - 1) * (length seqs - 1))) t /\
     (0 <= homogeneity_statistic n seqs)%R /\ (homogeneity_statistic n seqs = 0%R <-> same_pair_proportions n seqs)).
Proof. exact homogeneity_spec. Qed.
Example C117_homogeneity_ex : forall cdf, let seqs := [[0; 1; 1; 0]; [1; 0; 1]] in
  (exists t, assess_homogeneity cdf ["a"; "b"]%string seqs (Q2Qc (1 # 20)) = Ok t) /\ share_a_state seqs.
Proof.
  intros cdf seqs. split; [apply homogeneity_accepts; apply seqs_args_dec; vm_compute; reflexivity|]. exists 0, 1, 0. cbn. intuition lia.
Qed.
Print Assumptions C117_homogeneity_partial.
(** Two sequences with the same relative frequencies of transitions from every state: the statistic exceeds any bound. *)
Theorem C117_homogeneity_refuted : forall (cdf : chi2_cdf) (B : R), exists s s' t x, frequencies 2 s = frequencies 2 s' /\
  assess_homogeneity cdf ["a"; "b"]%string [s; s'] (Q2Qc (1 # 20)) = Ok t /\ t_chi2 t = Some (EFin x) /\ (B < x)%R.
Proof. exact homogeneity_unbounded. Qed.
Example C117_homogeneity_refuted_ex : frequencies 2 [0; 0; 1; 1; 1] = frequencies 2 [0; 0; 1; 1] /\ frequencies 2 [0; 0; 1; 1] = [[Q2Qc (1 # 2); Q2Qc (1 # 2)]; [0q; 1q]].
Proof. split; [transitivity ([[Q2Qc (1 # 2); Q2Qc (1 # 2)]; [0q; 1q]]); [exact (long_freq 2 ltac:(lia))|symmetry; exact (long_freq 1 ltac:(lia))]|exact (long_freq 1 ltac:(lia))]. Qed.
Print Assumptions C117_homogeneity_refuted.

(** * C118: order of the chain *)
Theorem C118_first_order : forall cdf states s sig t, let n := length states in assess_first_order cdf states s sig = Ok t ->
  ((exists b, b < n /\ ~ full_table n n (around s b)) -> no_conclusion t) /\
  ((forall b, b < n -> full_table n n (around s b)) ->
    reports cdf sig (EFin (Q2R (this (first_order_statistic n s)))) (Z.of_nat (n * ((n - 1) * (n - 1)))) t /\
    (0 <= first_order_statistic n s)%Qc /\
    (3 <= n -> (first_order_statistic n s = 0q <-> forall b, b < n -> independent n n (around s b)))).
Proof. exact first_order_spec. Qed.
Example C118_first_order_ex : forall cdf, let s := [0; 0; 1; 1; 2; 2; 0; 2; 1; 0; 0] in
  (exists t, assess_first_order cdf ["a"; "b"; "c"]%string s (Q2Qc (1 # 20)) = Ok t) /\ forall b, b < 3 -> full_table 3 3 (around s b).
Proof.
  intros cdf s. split; [apply first_order_accepts; apply test_args_dec; vm_compute; reflexivity|]. intros b Hb. apply full_dec. destruct b as [|[|[|b]]]; [vm_compute; reflexivity..|lia].
Qed.
Print Assumptions C118_first_order.

(** * C119: the Markov property *)
(** Names of equal length, degrees of freedom other than zero.  Missing: the other cases (below). *)
Theorem C119_markov_property_partial : forall cdf states s sig t T T' P S0, assess_markov_property cdf states s sig = Ok t -> equal_length states ->
  lists_triples (sample_length s) s T' -> lists_triples (length s - 2) s T -> lists_pairs (length s - 1) s P -> lists_states s S0 ->
  let n := length states in let dof := (Z.of_nat (length T) - Z.of_nat (length P) + Z.of_nat (length S0) - 1)%Z in
  (dof <> 0%Z -> reports cdf sig (EFin (Q2R (this (markov_statistic n s T')))) dof t) /\ (0 <= markov_statistic n s T')%Qc /\
  (markov_statistic n s T' = 0q <-> forall a b c, In (a, b, c) T' -> sample_triples s a b c = expected_triples n s a b c).
Proof. exact markov_spec. Qed.
Example C119_markov_property_ex : forall cdf, let s := [0; 1; 0; 1; 0; 1] in
  (exists t, assess_markov_property cdf ["a"; "b"]%string s (Q2Qc (1 # 20)) = Ok t) /\ equal_length ["a"; "b"]%string /\ sample_length s = length s - 2 /\
  lists_triples (length s - 2) s [(0, 1, 0); (1, 0, 1)] /\ lists_pairs (length s - 1) s [(0, 1); (1, 0)] /\ lists_states s [0; 1].
Proof. exact markov_example. Qed.
Print Assumptions C119_markov_property_partial.
(** A constant sequence is always found not to have the Markov property. *)
Theorem C119_constant_refuted : forall cdf states i m sig, test_arguments states (repeat i (3 + m)) sig ->
  exists t, assess_markov_property cdf states (repeat i (3 + m)) sig = Ok t /\ t_reject t = Some true /\ t_pvalue t = Some 0%R.
Proof. exact markov_constant. Qed.
Example C119_constant_ex : test_arguments ["a"; "b"]%string (repeat 1 (3 + 4)) (Q2Qc (1 # 20)).
Proof. apply test_args_dec; vm_compute; reflexivity. Qed.
Print Assumptions C119_constant_refuted.
(** The degrees of freedom depend on the names. *)
Theorem C119_names_refuted : forall cdf sig, (0 < sig)%Qc -> (sig <= Q2Qc (1 # 5))%Qc -> let s := [0; 1; 0; 1; 0; 1] in
  exists t t', assess_markov_property cdf ["1"; "11"]%string s sig = Ok t /\ assess_markov_property cdf ["a"; "b"]%string s sig = Ok t' /\ t_chi2 t = t_chi2 t' /\ t_dof t = Some 2%Z /\ t_dof t' = Some 1%Z.
Proof. exact markov_names. Qed.
Example C119_names_ex : (0 < Q2Qc (1 # 20))%Qc /\ (Q2Qc (1 # 20) <= Q2Qc (1 # 5))%Qc.
Proof. split; vm_compute; [reflexivity|discriminate]. Qed.
Print Assumptions C119_names_refuted.

(** * C120: stationarity *)
(** Two blocks or more.  Missing: one block, which is the default, and two blocks for two states (below). *)
Theorem C120_stationarity_partial : forall cdf states s blocks sig t, let n := length states in 2 <= blocks -> assess_stationarity cdf states s blocks sig = Ok t ->
  ((exists i j, i < n /\ j < n /\ forall b, b < blocks -> block_frequencies n s blocks i b j = 0q) -> no_conclusion t) /\
  ((forall i j, i < n -> j < n -> exists b, b < blocks /\ block_frequencies n s blocks i b j <> 0q) ->
    reports cdf sig (EFin (Q2R (this (stationarity_statistic n s blocks)))) (Z.of_nat (n * (n - 1) * (blocks - 1))) t /\
    (0 <= stationarity_statistic n s blocks)%Qc /\
    (~ (n = 2 /\ blocks = 2) -> (stationarity_statistic n s blocks = 0q <->
       forall i b b' j, i < n -> b < blocks -> b' < blocks -> j < n -> block_frequencies n s blocks i b j = block_frequencies n s blocks i b' j))).
Proof. exact stationarity_spec. Qed.
Example C120_stationarity_ex : forall cdf, let s := [0; 1; 1; 0; 0; 1; 0; 1; 1] in
  (exists t, assess_stationarity cdf ["a"; "b"]%string s 3 (Q2Qc (1 # 20)) = Ok t) /\ (forall i j, i < 2 -> j < 2 -> exists b, b < 3 /\ block_frequencies 2 s 3 i b j <> 0q).
Proof.
  intros cdf s. split; [apply stationarity_accepts; split; [apply test_args_dec; vm_compute; reflexivity|lia]|]. 
  intros i j Hi Hj. exists (if Nat.eqb (i + j) 0 then 1 else 0). split; [destruct (Nat.eqb (i + j) 0); lia|]. destruct i as [|[|i]]; [| |lia]; (destruct j as [|[|j]]; [| |lia]); apply Qceqb_neq; vm_compute; reflexivity.
Qed.
Print Assumptions C120_stationarity_partial.
(** With the default number of blocks every sequence is found not to be stationary. *)
Theorem C120_default_refuted : forall cdf states s sig, test_arguments states s sig ->
  exists t, assess_stationarity cdf states s 1 sig = Ok t /\ t_reject t = Some true /\ t_pvalue t = Some 0%R.
Proof. exact stationarity_default. Qed.
Example C120_default_ex : test_arguments ["a"; "b"]%string [0; 1; 0; 1; 0; 1] (Q2Qc (1 # 20)).
Proof. apply test_args_dec; vm_compute; reflexivity. Qed.
Print Assumptions C120_default_refuted.
(** Two states and two blocks: the statistic is zero, however different the halves are. *)
Theorem C120_two_blocks_refuted : forall cdf states s sig t, length states = 2 -> assess_stationarity cdf states s 2 sig = Ok t ->
  no_conclusion t \/ reports cdf sig (EFin 0%R) 2 t.
Proof. exact stationarity_two. Qed.
Example C120_two_blocks_ex : forall cdf, let s := [0; 0; 0; 0; 1; 1; 1; 1; 0; 1; 0; 1; 0; 1; 0; 1; 0] in
  (exists t, assess_stationarity cdf ["a"; "b"]%string s 2 (Q2Qc (1 # 20)) = Ok t) /\ block_frequencies 2 s 2 0 0 0 = Q2Qc (3 # 4) /\ block_frequencies 2 s 2 0 1 0 = 0q.
Proof. intros cdf s. split; [apply stationarity_accepts; split; [apply test_args_dec; vm_compute; reflexivity|lia]|]. split; apply Qceqb_eq; vm_compute; reflexivity. Qed.
Print Assumptions C120_two_blocks_refuted.

(** * C121: accepted arguments and levels of significance *)
Theorem C121_accepted : forall cdf states s seqs blocks mc sig,
  ((exists t, assess_first_order cdf states s sig = Ok t) <-> test_arguments states s sig) /\
  ((exists t, assess_markov_property cdf states s sig = Ok t) <-> test_arguments states s sig) /\
  ((exists t, assess_stationarity cdf states s blocks sig = Ok t) <-> test_arguments states s sig /\ 1 <= blocks) /\
  ((exists t, assess_homogeneity cdf states seqs sig = Ok t) <-> sequences_arguments states seqs sig) /\
  ((exists t, assess_theoretical_compatibility cdf mc s sig = Ok t) <-> sequence_arguments (length (ch_p mc)) s sig).
Proof. exact tests_accept. Qed.
Example C121_accepted_ex : test_arguments ["a"; "b"]%string [0; 1; 0] (Q2Qc (1 # 5)) /\ ~ test_arguments ["a"; "b"]%string [0; 1; 0] (Q2Qc (1 # 4)).
Proof. split; [apply test_args_dec; vm_compute; reflexivity|]. intros (_ & _ & _ & _ & _ & C). vm_compute in C. apply C. reflexivity. Qed.
Print Assumptions C121_accepted.
Theorem C121_levels : forall cdf states s seqs blocks mc sig sig' t t', (sig <= sig')%Qc ->
  (assess_first_order cdf states s sig = Ok t -> assess_first_order cdf states s sig' = Ok t' -> same_but_level t t') /\
  (assess_markov_property cdf states s sig = Ok t -> assess_markov_property cdf states s sig' = Ok t' -> same_but_level t t') /\
  (assess_stationarity cdf states s blocks sig = Ok t -> assess_stationarity cdf states s blocks sig' = Ok t' -> same_but_level t t') /\
  (assess_homogeneity cdf states seqs sig = Ok t -> assess_homogeneity cdf states seqs sig' = Ok t' -> same_but_level t t') /\
  (assess_theoretical_compatibility cdf mc s sig = Ok t -> assess_theoretical_compatibility cdf mc s sig' = Ok t' -> same_but_level t t').
Proof. exact tests_levels. Qed.
Example C121_levels_ex : forall cdf, (Q2Qc (1 # 100) <= Q2Qc (1 # 20))%Qc /\ (exists t, assess_markov_property cdf ["a"; "b"]%string [0; 1; 0] (Q2Qc (1 # 100)) = Ok t) /\ (exists t, assess_markov_property cdf ["a"; "b"]%string [0; 1; 0] (Q2Qc (1 # 20)) = Ok t).
Proof. intros cdf. split; [vm_compute; discriminate|]. split; apply markov_accepts; apply test_args_dec; vm_compute; reflexivity. Qed.
Print Assumptions C121_levels.
