(** P_GraphPlot: properties of plot_graph (theorems only). *)
From Coq Require Import QArith_base.
From Verif Require Import M_GraphPlot S_Struct L_Struct1 L_GraphPlot Dec.
Open Scope nat_scope.

(** ** C164 edges and edge labels of the graph of a model *)
Theorem C164_edges_partial : forall n p i j z, wf n n p -> In (i, j, z) (chain_edges p) <-> i < n /\ j < n /\ (0 < mget p i j)%Qc /\ z = edge_label (magnitude [p]) (mget p i j).
Proof. exact chain_edges_in. Qed.
Print Assumptions C164_edges_partial.
Theorem C164_hmm_edges_partial : forall n k p e i j z, 0 < n -> wf n n p -> wf n k e ->
  (In (i, j, z) (fst (hmm_edges p e)) <-> i < n /\ j < n /\ (0 < mget p i j)%Qc /\ z = edge_label (magnitude [p; e]) (mget p i j)) /\
  (In (i, j, z) (snd (hmm_edges p e)) <-> i < n /\ j < k /\ (0 < mget e i j)%Qc /\ z = edge_label (magnitude [p; e]) (mget e i j)).
Proof. exact hmm_edges_in. Qed.
Print Assumptions C164_hmm_edges_partial.
Theorem C164_close_partial : forall m x, (Qcabs (Q2Qc (inject_Z (edge_label m x)) / ten_to m - x) <= Q2Qc (1 # 2) / ten_to m)%Qc.
Proof. exact label_close. Qed.
Print Assumptions C164_close_partial.
Theorem C164_positive_partial : forall elements e n m, In e elements -> wf n m e -> (forall i j, i < n -> j < m -> (Q2Qc (1 # 10000) <= mget e i j)%Qc) ->
  forall i j, i < n -> j < m -> (0 < edge_label (magnitude elements) (mget e i j))%Z.
Proof. exact label_positive. Qed.
Print Assumptions C164_positive_partial.
Theorem C164_zero_refuted : forall n p i j, stochastic n p -> i < n -> j < n -> mget p i j = 0q ->
  forall a b, a < n -> b < n -> (0 < mget p a b)%Qc -> (mget p a b < Q2Qc (1 # 20))%Qc -> In (a, b, 0%Z) (chain_edges p) /\ magnitude [p] = 1.
Proof. exact zero_label. Qed.
Print Assumptions C164_zero_refuted.
Example C164_example : stochastic 2 (qm [[1 # 25; 24 # 25]; [1 # 1; 0]]%Q) /\ chain_edges (qm [[1 # 25; 24 # 25]; [1 # 1; 0]]%Q) = [(0, 0, 0%Z); (0, 1, 10%Z); (1, 0, 10%Z)] /\
  chain_edges (qm [[1 # 25; 24 # 25]; [1 # 2; 1 # 2]]%Q) = [(0, 0, 4%Z); (0, 1, 96%Z); (1, 0, 50%Z); (1, 1, 50%Z)].
Proof. split; [apply stochasticb_ok; vm_compute; reflexivity|]. split; vm_compute; reflexivity. Qed.

(** ** C165 colours and shapes of the nodes *)
Theorem C165_communicating_partial : forall n E comps i j, scc_enum n E comps -> i < n -> j < n -> mutual n E i j -> node_color comps i = node_color comps j.
Proof. exact same_color. Qed.
Print Assumptions C165_communicating_partial.
Theorem C165_nine_partial : forall n E comps i j, scc_enum n E comps -> length (communicating_indices comps) <= 9 -> i < n -> j < n -> (node_color comps i = node_color comps j <-> mutual n E i j).
Proof. exact color_iff. Qed.
Print Assumptions C165_nine_partial.
Theorem C165_shared_refuted : forall n E comps, scc_enum n E comps -> 9 < length (communicating_indices comps) ->
  exists i j, i < n /\ j < n /\ ~ mutual n E i j /\ node_color comps i = node_color comps j.
Proof. exact colors_shared. Qed.
Print Assumptions C165_shared_refuted.
Theorem C165_hmm_partial : forall n i j, n <= 9 -> i < n -> j < n -> (hmm_color n i = hmm_color n j <-> i = j).
Proof. exact hmm_color_iff. Qed.
Print Assumptions C165_hmm_partial.
Theorem C165_hmm_refuted : forall n, 9 < n -> hmm_color n 0 = hmm_color n 9.
Proof. exact hmm_color_shared. Qed.
Print Assumptions C165_hmm_refuted.
Theorem C165_shapes_partial : forall n p comps i, wf n n p -> scc_enum n (edge p) comps -> i < n -> (rectangular p comps i = true <-> exists y, reach n (edge p) i y /\ ~ reach n (edge p) y i).
Proof. exact rectangular_iff. Qed.
Print Assumptions C165_shapes_partial.
Example C165_example : scc_enum 10 (edge (eye 10)) (sccs (eye 10)) /\ length (communicating_indices (sccs (eye 10))) = 10 /\ map (node_color (sccs (eye 10))) [0; 9] = [Some 0; Some 0].
Proof.
  assert (W : wf 10 10 (eye 10)) by (apply wfb_ok; vm_compute; reflexivity). split; [exact (sccs_enum 10 (eye 10) W)|]. split; vm_compute; reflexivity.
Qed.
