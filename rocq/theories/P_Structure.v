(** P_Structure: property theorems about the structure of a chain: classes,
    accessibility, absorption, periods, regularity, monotonicity, lumpability.

    States are positions 0..n-1 (names are distinct, so they correspond).  [comps]
    is any enumeration networkx may return of the strongly connected components,
    [o] any of its enumeration orders, [nxa] any answer of networkx.is_aperiodic. *)
From Coq Require Import Permutation Sorted.
From Verif Require Import L_StructR.

(** ** C27 to_canonical_form *)
Theorem C27_canonical_form : forall n c comps, valid_chain n c -> scc_enum n (edge (ch_p c)) comps ->
  let r := to_canonical_form c comps in
  valid_chain n r /\
  exists s k, Permutation (seq 0 n) s /\ k <= n /\
    (forall a, a < n -> nth a (ch_states r) ""%string = nth (nth a s 0) (ch_states c) ""%string) /\
    (forall a b, a < n -> b < n -> mget (ch_p r) a b = mget (ch_p c) (nth a s 0) (nth b s 0)) /\
    (forall a, a < n -> a < k <-> exists y, reach n (edge (ch_p c)) (nth a s 0) y /\ ~ reach n (edge (ch_p c)) y (nth a s 0)) /\
    (forall a b, k <= a < n -> b < k -> mget (ch_p r) a b = 0q).
Proof. exact to_canonical_spec. Qed.
Print Assumptions C27_canonical_form.
Theorem C27_is_canonical : forall n p comps, wf n n p -> scc_enum n (edge p) comps ->
  (is_canonical p comps = true <-> forall a b, a < n -> ~ recurrent n (edge p) a -> recurrent n (edge p) b -> a < b).
Proof. exact is_canonical_reach. Qed.
Print Assumptions C27_is_canonical.
Example C27_example : shows (Ok (to_canonical_form cB (sccs (ch_p cB)))) [[0; 1; 0]; [1 # 3; 1 # 3; 1 # 3]; [0; 0; 1]]%Q ["x"; "y"; "z"]%string
  /\ shows (Ok (to_canonical_form cR (sccs (ch_p cR)))) [[1 # 2; 1 # 2; 0]; [0; 0; 1]; [0; 1; 0]]%Q ["b"; "a"; "c"]%string
  /\ valid_chain 3 cR /\ scc_enum 3 (edge (ch_p cR)) (sccs (ch_p cR)).
Proof.
  assert (V : valid_chain 3 cR) by (apply valid_chainb_ok; vm_compute; reflexivity).
  split; [vm_compute; split; reflexivity|]. split; [vm_compute; split; reflexivity|]. split; [exact V|apply sccs_enum; apply V].
Qed.

(** ** C29 lumping_partitions *)
Theorem C29_contiguous_partitions_partial : forall n p, 2 <= n -> wf n n p ->
  NoDup (find_lumping_partitions p) /\
  forall parts, In parts (find_lumping_partitions p) <-> contiguous n parts /\ 2 <= length parts < n /\ lumpable p parts.
Proof. exact find_lumping_spec. Qed.
Print Assumptions C29_contiguous_partitions_partial.
Example C29_example : find_lumping_partitions (ch_p cL4) = [[[0; 1]; [2; 3]]] /\ wf 4 4 (ch_p cL4).
Proof. split; [vm_compute; reflexivity|]. apply wfb_ok. vm_compute. reflexivity. Qed.
Theorem C29_missing_partition_refuted : exists n P parts, stochastic n P /\ partition_of n parts /\ 2 <= length parts < n /\ lumpable P parts /\
  forall parts', In parts' (find_lumping_partitions P) -> exists B, In B parts /\ forall B', In B' parts' -> ~ (forall x, In x B <-> In x B').
Proof. exact lumping_missed_refuted. Qed.
Print Assumptions C29_missing_partition_refuted.

(** ** C30 accessibility *)
Theorem C30_is_accessible_17_states_partial : forall n P i j, wf n n P -> n <= 17 -> i < n -> j < n ->
  (is_accessible P j i = true <-> reach n (edge P) i j).
Proof. exact access_small. Qed.
Print Assumptions C30_is_accessible_17_states_partial.
Theorem C30_matrix_17_states_partial : forall n P i j, wf n n P -> n <= 17 -> i < n -> j < n ->
  (zget (accessibility_matrix P) i j = 1%Z /\ reach n (edge P) i j) \/ (zget (accessibility_matrix P) i j = 0%Z /\ ~ reach n (edge P) i j).
Proof. exact access_matrix_small. Qed.
Print Assumptions C30_matrix_17_states_partial.
Theorem C30_are_communicating_17_states_partial : forall n P i j, wf n n P -> n <= 17 -> i < n -> j < n ->
  (are_communicating P i j = true <-> reach n (edge P) i j /\ reach n (edge P) j i).
Proof. exact communicating_small. Qed.
Print Assumptions C30_are_communicating_17_states_partial.
Theorem C30_is_accessible_sparse_partial : forall n P d i j, wf n n P -> (forall k, k < n -> outdeg n P k <= d) ->
  ((Z.of_nat d + 1) ^ Z.of_nat (n - 1) < 2 ^ 63)%Z -> i < n -> j < n ->
  (is_accessible P j i = true <-> reach n (edge P) i j).
Proof. exact access_sparse. Qed.
Print Assumptions C30_is_accessible_sparse_partial.
Example C30_example : wf 3 3 (ch_p cB) /\ is_accessible (ch_p cB) 2 0 = true /\ is_accessible (ch_p cB) 0 2 = false /\
  accessibility_matrix (ch_p cB) = [[1; 1; 1]; [1; 1; 1]; [0; 0; 1]]%Z /\
  (forall k, k < 3 -> outdeg 3 (ch_p cB) k <= 3) /\ ((Z.of_nat 3 + 1) ^ Z.of_nat (3 - 1) < 2 ^ 63)%Z.
Proof.
  split; [apply wfb_ok; vm_compute; reflexivity|]. repeat split; try (vm_compute; reflexivity).
  intros [|[|[|k]]] Hk; vm_compute; lia.
Qed.
Theorem C30_overflow_refuted : exists n P, stochastic n P /\ exists i j, i < n /\ j < n /\ reach n (edge P) i j /\ is_accessible P j i = false.
Proof. exact access_refuted. Qed.
Print Assumptions C30_overflow_refuted.

(** ** C31 communicating classes *)
Theorem C31_communicating_classes : forall n E comps, scc_enum n E comps ->
  let cs := communicating_indices comps in
  partition_of n cs /\
  (forall B i j, In B cs -> In i B -> j < n -> (In j B <-> reach n E i j /\ reach n E j i)) /\
  (forall B, In B cs -> StronglySorted lt B) /\ StronglySorted class_before cs.
Proof. exact communicating_spec. Qed.
Print Assumptions C31_communicating_classes.
Theorem C31_independent_of_enumeration : forall n E comps comps', scc_enum n E comps -> scc_enum n E comps' ->
  communicating_indices comps = communicating_indices comps'.
Proof. exact communicating_order_free. Qed.
Print Assumptions C31_independent_of_enumeration.
Theorem C31_communication_matrix : forall n p comps i j, wf n n p -> scc_enum n (edge p) comps -> i < n -> j < n ->
  (zget (communication_matrix p comps) i j = 1%Z /\ mutual n (edge p) i j) \/
  (zget (communication_matrix p comps) i j = 0%Z /\ ~ mutual n (edge p) i j).
Proof. exact communication_get. Qed.
Print Assumptions C31_communication_matrix.
Example C31_example : communicating_indices [[2]; [1; 0]] = [[0; 1]; [2]] /\ communicating_indices (sccs (ch_p cB)) = [[0; 1]; [2]] /\
  scc_enum 3 (edge (ch_p cB)) (sccs (ch_p cB)) /\ communication_matrix (ch_p cB) (sccs (ch_p cB)) = [[1; 1; 0]; [1; 1; 0]; [0; 0; 1]]%Z.
Proof. split; [vm_compute; reflexivity|]. split; [vm_compute; reflexivity|]. split; [apply sccs_enum, wfb_ok; vm_compute; reflexivity|vm_compute; reflexivity]. Qed.

(** ** C32 recurrent and transient classes *)
Theorem C32_recurrent_transient : forall n p comps B, wf n n p -> scc_enum n (edge p) comps ->
  (In B (recurrent_classes_indices p comps) <-> In B (communicating_indices comps) /\ closed n (edge p) B) /\
  (In B (transient_classes_indices p comps) <-> In B (communicating_indices comps) /\ ~ closed n (edge p) B).
Proof. exact recurrent_transient_spec. Qed.
Print Assumptions C32_recurrent_transient.
Theorem C32_exactly_one : forall n p comps B, wf n n p -> scc_enum n (edge p) comps -> In B (communicating_indices comps) ->
  (In B (recurrent_classes_indices p comps) /\ ~ In B (transient_classes_indices p comps)) \/
  (In B (transient_classes_indices p comps) /\ ~ In B (recurrent_classes_indices p comps)).
Proof. exact exactly_one_kind. Qed.
Print Assumptions C32_exactly_one.
Theorem C32_some_recurrent : forall n p comps, 0 < n -> wf n n p -> scc_enum n (edge p) comps ->
  exists B, In B (recurrent_classes_indices p comps).
Proof. exact recurrent_class_exists. Qed.
Print Assumptions C32_some_recurrent.
Theorem C32_recurrent_states : forall n p comps x, wf n n p -> scc_enum n (edge p) comps ->
  In x (recurrent_states_indices p comps) <-> x < n /\ forall y, reach n (edge p) x y -> reach n (edge p) y x.
Proof. exact recurrent_state_in. Qed.
Print Assumptions C32_recurrent_states.
Theorem C32_transient_states : forall n p comps x, wf n n p -> scc_enum n (edge p) comps ->
  In x (transient_states_indices p comps) <-> x < n /\ exists y, reach n (edge p) x y /\ ~ reach n (edge p) y x.
Proof. exact transient_state_in. Qed.
Print Assumptions C32_transient_states.
Example C32_example : recurrent_classes_indices (ch_p cB) (sccs (ch_p cB)) = [[2]] /\ transient_classes_indices (ch_p cB) (sccs (ch_p cB)) = [[0; 1]] /\
  wf 3 3 (ch_p cB) /\ scc_enum 3 (edge (ch_p cB)) (sccs (ch_p cB)).
Proof.
  assert (W : wf 3 3 (ch_p cB)) by (apply wfb_ok; vm_compute; reflexivity).
  split; [vm_compute; reflexivity|]. split; [vm_compute; reflexivity|]. split; [exact W|apply sccs_enum; exact W].
Qed.

(** ** C33 absorbing states *)
Theorem C33_absorbing_recurrent_partial : forall n P comps i, stochastic n P -> scc_enum n (edge P) comps ->
  (forall k, k < n -> mget P k k = 1q \/ (mget P k k <= 1 - Q2Qc (2 # 100000))%Qc) ->
  In i (absorbing_indices P) <-> In [i] (recurrent_classes_indices P comps).
Proof. exact absorbing_recurrent_gap. Qed.
Print Assumptions C33_absorbing_recurrent_partial.
Theorem C33_absorbing_not_transient_partial : forall n P comps i, stochastic n P -> scc_enum n (edge P) comps ->
  (forall k, k < n -> mget P k k = 1q \/ (mget P k k <= 1 - Q2Qc (2 # 100000))%Qc) ->
  In i (absorbing_indices P) -> ~ In i (transient_states_indices P comps).
Proof. exact absorbing_not_transient_gap. Qed.
Print Assumptions C33_absorbing_not_transient_partial.
Theorem C33_singleton_recurrent_is_absorbing : forall n P comps i, stochastic n P -> scc_enum n (edge P) comps ->
  In [i] (recurrent_classes_indices P comps) -> In i (absorbing_indices P).
Proof. exact recurrent_single_absorbing. Qed.
Print Assumptions C33_singleton_recurrent_is_absorbing.
Example C33_example : stochastic 3 (ch_p cB) /\ scc_enum 3 (edge (ch_p cB)) (sccs (ch_p cB)) /\ absorbing_indices (ch_p cB) = [2] /\
  (forall k, k < 3 -> mget (ch_p cB) k k = 1q \/ (mget (ch_p cB) k k <= 1 - Q2Qc (2 # 100000))%Qc).
Proof.
  assert (HS : stochastic 3 (ch_p cB)) by (apply stochasticb_ok; vm_compute; reflexivity).
  split; [exact HS|]. split; [apply sccs_enum; apply HS|]. split; [vm_compute; reflexivity|].
  intros [|[|[|k]]] Hk; [right|right|left|lia]; [apply Qcleb_le; vm_compute; reflexivity..|apply Qceqb_eq; vm_compute; reflexivity].
Qed.
Theorem C33_absorbing_and_transient_refuted : exists n P i, stochastic n P /\ In i (absorbing_indices P) /\ In i (transient_states_indices P (sccs P)) /\
  forall B, In B (recurrent_classes_indices P (sccs P)) -> ~ In i B.
Proof. exact absorbing_transient_refuted. Qed.
Print Assumptions C33_absorbing_and_transient_refuted.

(** ** C34 is_absorbing *)
Theorem C34_is_absorbing : forall n P, 0 < n -> wf n n P ->
  exists b, is_absorbing P = Ok b /\ (b = true <-> forall i, i < n -> exists a, In a (absorbing_indices P) /\ reach n (edge P) i a).
Proof. exact is_absorbing_spec. Qed.
Print Assumptions C34_is_absorbing.
Theorem C34_is_absorbing_exact : forall n P, 0 < n -> stochastic n P ->
  (forall k, k < n -> mget P k k = 1q \/ (mget P k k <= 1 - Q2Qc (2 # 100000))%Qc) ->
  exists b, is_absorbing P = Ok b /\ (b = true <-> forall i, i < n -> exists a, a < n /\ mget P a a = 1q /\ reach n (edge P) i a).
Proof. exact absorbing_exact_spec. Qed.
Print Assumptions C34_is_absorbing_exact.
Example C34_example : is_absorbing (ch_p cB) = Ok true /\ is_absorbing (ch_p cA) = Ok false /\ is_absorbing (qm [[1; 0; 0]; [0; 0; 1]; [0; 1; 0]]%Q) = Ok false /\ wf 3 3 (ch_p cB).
Proof. repeat split; try (vm_compute; reflexivity); apply (wfb_ok 3 3); vm_compute; reflexivity. Qed.

(** ** C35 is_irreducible *)
Theorem C35_is_irreducible : forall n p comps, 0 < n -> wf n n p -> scc_enum n (edge p) comps ->
  is_irreducible comps = true <-> (forall i j, i < n -> j < n -> reach n (edge p) i j).
Proof. exact is_irreducible_spec. Qed.
Print Assumptions C35_is_irreducible.
Example C35_example : is_irreducible (sccs (ch_p cA)) = true /\ is_irreducible (sccs (ch_p cB)) = false /\ scc_enum 3 (edge (ch_p cA)) (sccs (ch_p cA)).
Proof. split; [vm_compute; reflexivity|]. split; [vm_compute; reflexivity|]. apply sccs_enum, wfb_ok. vm_compute. reflexivity. Qed.

(** ** C36 period of an irreducible chain *)
Theorem C36_period_irreducible : forall n p names o nxa, 2 <= n -> stochastic n p -> length names = n -> NoDup names -> nx_ok n p o ->
  irreducible n (edge p) ->
  exists d, period p names o nxa = Ok d /\ (1 <= d)%Z /\ (forall x, x < n -> period_of n (edge p) x d) /\
    is_aperiodic p names o nxa = Ok (Z.eqb d 1).
Proof. exact period_irreducible. Qed.
Print Assumptions C36_period_irreducible.
Example C36_example : period (ch_p cP) (ch_states cP) (nx_default (ch_p cP)) false = Ok 2%Z /\ nx_ok 4 (ch_p cP) (nx_default (ch_p cP)) /\
  stochastic 4 (ch_p cP) /\ irreducible 4 (edge (ch_p cP)) /\ NoDup (ch_states cP).
Proof.
  assert (V : valid_chain 4 cP) by (apply valid_chainb_ok; vm_compute; reflexivity). assert (W : wf 4 4 (ch_p cP)) by apply V.
  split; [vm_compute; reflexivity|]. split; [apply nx_default_ok; exact W|]. split; [apply V|]. split; [|apply V].
  apply (is_irreducible_spec 4 (ch_p cP) (sccs (ch_p cP))); [lia|exact W|apply sccs_enum; exact W|vm_compute; reflexivity].
Qed.

(** ** C37 periods of the communicating classes *)
Theorem C37_periods_sorted_names_partial : forall n p names o, wf n n p -> length names = n -> NoDup names -> names_ascending n names -> nx_ok n p o ->
  exists per, calculate_periods p names o = Ok per /\ length per = length (communicating_indices (nx_comps o)) /\
    forall k, k < length per -> let B := nth k (communicating_indices (nx_comps o)) [] in
      (closed n (edge p) B -> forall x, In x B -> period_of n (edge p) x (nth k per 0%Z)) /\ (~ closed n (edge p) B -> nth k per 0%Z = 1%Z).
Proof. exact periods_ascending. Qed.
Print Assumptions C37_periods_sorted_names_partial.
Theorem C37_periods_by_name_partial : forall n p names o, wf n n p -> length names = n -> NoDup names -> nx_ok n p o ->
  exists per, calculate_periods p names o = Ok per /\ length per = length (nx_comps o) /\
    forall B, In B (nx_comps o) -> exists k, k < length per /\
      nth k (sort_sclasses (map (fun scc => sort_str (named names scc)) (nx_comps o))) [] = sort_str (named names B) /\
      (closed n (edge p) B -> forall x, In x B -> period_of n (edge p) x (nth k per 0%Z)) /\ (~ closed n (edge p) B -> nth k per 0%Z = 1%Z).
Proof. exact periods_by_name. Qed.
Print Assumptions C37_periods_by_name_partial.
Example C37_example : calculate_periods pRed ["1"; "2"; "3"]%string (nx_default pRed) = Ok [2; 1]%Z /\ communicating_indices (sccs pRed) = [[1; 2]; [0]] /\
  names_ascending 3 ["1"; "2"; "3"]%string /\ nx_ok 3 pRed (nx_default pRed).
Proof.
  split; [vm_compute; reflexivity|]. split; [vm_compute; reflexivity|]. split; [|apply nx_default_ok, wfb_ok; vm_compute; reflexivity].
  intros i j Hij Hj. destruct i as [|[|i]], j as [|[|[|j]]]; try lia; vm_compute; reflexivity.
Qed.
Theorem C37_periods_order_refuted : exists n p per k B x, stochastic n p /\
  calculate_periods p (create_labels n "") (nx_default p) = Ok per /\
  nth_error (communicating_indices (sccs p)) k = Some B /\ In x B /\ recurrent n (edge p) x /\ period_of n (edge p) x 2 /\ nth_error per k = Some 1%Z.
Proof. exact periods_order_refuted. Qed.
Print Assumptions C37_periods_order_refuted.

(** ** C38 cyclic classes *)
Theorem C38_cyclic_classes : forall n p names o nxa d, 2 <= n -> stochastic n p -> length names = n -> NoDup names -> nx_ok n p o ->
  irreducible n (edge p) -> (forall x, x < n -> period_of n (edge p) x d) -> (2 <= d)%Z ->
  exists cs, cyclic_classes_indices p names o nxa = Ok cs /\ length cs = Z.to_nat d /\ partition_of n cs /\
    exists cyc, Permutation cs cyc /\ cyclic_order n (edge p) cyc.
Proof. exact cyclic_classes_periodic. Qed.
Print Assumptions C38_cyclic_classes.
Example C38_example : cyclic_classes_indices (ch_p cP) (ch_states cP) (nx_default (ch_p cP)) false = Ok [[0; 2]; [1; 3]] /\
  forall x, x < 4 -> period_of 4 (edge (ch_p cP)) x 2.
Proof.
  split; [vm_compute; reflexivity|].
  assert (V : valid_chain 4 cP) by (apply valid_chainb_ok; vm_compute; reflexivity). assert (W : wf 4 4 (ch_p cP)) by apply V.
  destruct (period_irreducible 4 (ch_p cP) (ch_states cP) (nx_default (ch_p cP)) false) as (d & Hd & _ & Hp & _);
    [lia|apply V|reflexivity|apply V|apply nx_default_ok; exact W| |].
  - apply (is_irreducible_spec 4 (ch_p cP) (sccs (ch_p cP))); [lia|exact W|apply sccs_enum; exact W|vm_compute; reflexivity].
  - assert (d = 2%Z) by (vm_compute in Hd; congruence). subst d. exact Hp.
Qed.

(** ** C39 is_regular *)
Theorem C39_is_regular : forall n P, 2 <= n -> stochastic n P -> is_regular P = true <-> regular n P.
Proof. exact is_regular_spec. Qed.
Print Assumptions C39_is_regular.
Example C39_example : is_regular (ch_p cA) = true /\ is_regular (qm [[0; 1; 0]; [0; 0; 1]; [1; 0; 0]]%Q) = false /\ stochastic 3 (ch_p cA).
Proof. repeat split; try (vm_compute; reflexivity); apply (stochasticb_ok 3); vm_compute; reflexivity. Qed.

(** ** C40 is_stochastically_monotone *)
Theorem C40_stochastically_monotone : forall n P, stochastic n P ->
  (is_stochastically_monotone P = true <-> forall i k, i < k -> k < n -> dominated n P i k).
Proof. exact monotone_dominated. Qed.
Print Assumptions C40_stochastically_monotone.
Example C40_example : is_stochastically_monotone (qm [[1 # 2; 1 # 2; 0]; [1 # 4; 1 # 2; 1 # 4]; [0; 1 # 2; 1 # 2]]%Q) = true /\ is_stochastically_monotone (ch_p cA) = false /\ stochastic 3 (ch_p cA).
Proof. repeat split; try (vm_compute; reflexivity); apply (stochasticb_ok 3); vm_compute; reflexivity. Qed.

(** ** C76 period of an arbitrary chain *)
Theorem C76_period_lcm_partial : forall n P names o, stochastic n P -> length names = n -> NoDup names -> names_ascending n names -> nx_ok n P o -> 0 < n ->
  exists D, period P names o false = Ok D /\ is_aperiodic P names o false = Ok (Z.eqb D 1) /\ (1 <= D)%Z /\ lcm_of_periods n (edge P) D.
Proof. exact period_reducible. Qed.
Print Assumptions C76_period_lcm_partial.
Example C76_example : period pRed ["1"; "2"; "3"]%string (nx_default pRed) false = Ok 2%Z /\ stochastic 3 pRed.
Proof. split; [vm_compute; reflexivity|]. apply stochasticb_ok. vm_compute. reflexivity. Qed.
Theorem C76_period_reducible_refuted : exists n p names, stochastic n p /\ length names = n /\ names_ascending n names /\
  forall nxa, nx_aperiodic_doc n (edge p) nxa ->
    period p names (nx_default p) nxa = Ok 1%Z /\ is_aperiodic p names (nx_default p) nxa = Ok true /\
    exists x, recurrent n (edge p) x /\ period_of n (edge p) x 2.
Proof. exact period_reducible_refuted. Qed.
Print Assumptions C76_period_reducible_refuted.
