(** P_Trellis: properties of plot_trellis (theorems only). *)
From Verif Require Import M_Trellis S_Trellis L_Trellis L_Trellis2 ExH Dec.
Open Scope nat_scope.
Open Scope res_scope.

(** ** C159 a trellis diagram can be plotted for every hidden Markov model *)
Theorem C159_positive_partial : forall ext n k h steps init r c0 pr er, runnable n k (h_p h) (h_e h) c0 pr er -> 2 <= steps -> (forall i, init = Some i -> i < n) ->
  (forall i j, i < n -> j < n -> (0 < mget (h_p h) i j)%Qc) -> (forall i j, i < n -> j < k -> (Q2Qc (1 # (Pos.pow 10 300)) <= mget (h_e h) i j)%Qc) ->
  exists bw fw, plot_trellis ext h steps init r c0 pr er = Ok (bw, fw).
Proof. exact trellis_succeeds. Qed.
Print Assumptions C159_positive_partial.
Theorem C159_fails_refuted : forall ext steps init r c0 pr er, runnable 2 2 (h_p hTurns) (h_e hTurns) c0 pr er -> plot_trellis ext hTurns steps init r c0 pr er = Err ValueErr.
Proof. exact turns_fail. Qed.
Print Assumptions C159_fails_refuted.
Example C159_example : runnable 2 2 (h_p hTurns) (h_e hTurns) (q (1 # 4)) (uQ (1 # 2)) (uQ (1 # 2)) /\ runnable 2 3 pH eH (q (1 # 4)) (uQ (1 # 2)) (uQ (1 # 2)).
Proof. split; apply runnable_ex; vm_compute; reflexivity. Qed.

(** ** C160 the numbers in a column belong to the symbol above it *)
Theorem C160_numbers_partial : forall ext n k h steps init r c0 pr er bw fw, runnable n k (h_p h) (h_e h) c0 pr er ->
  plot_trellis ext h steps init r c0 pr er = Ok (bw, fw) ->
  let P := h_p h in let E := h_e h in let x := initial_distribution n init in let sy := trellis_symbols h steps init r c0 pr er in
  let L t := likelihood n P E x (firstn t sy) in
  length sy = S steps /\ la_cols fw = S steps /\ la_cols bw = S steps /\
  (forall t, 1 <= t <= steps -> la_header fw t = Some (nth t sy 0) /\ la_header bw t = Some (nth t sy 0)) /\
  (forall i, i < n -> la_number fw (i, 0) = vget x i) /\
  (forall t i, t < steps -> i < n -> la_number fw (i, S t) = filtered n P E x sy t i) /\
  (forall t i, t <= steps -> i < n -> la_number bw (i, t) = (future n P E i (skipn t sy) * L t / L (S steps))%Qc).
Proof. exact trellis_numbers. Qed.
Print Assumptions C160_numbers_partial.
Theorem C160_header_refuted : runnable 2 3 pH eH (q (1 # 4)) (uQ (1 # 2)) (uQ (1 # 2)) /\
  exists bw fw y, plot_trellis false hH 2 None 0 (q (1 # 4)) (uQ (1 # 2)) (uQ (1 # 2)) = Ok (bw, fw) /\
  la_header fw 1 = Some y /\ nth 1 (trellis_symbols hH 2 None 0 (q (1 # 4)) (uQ (1 # 2)) (uQ (1 # 2))) 0 = y /\
  la_number fw (0, 1) <> filtered 2 pH eH (initial_distribution 2 None) (trellis_symbols hH 2 None 0 (q (1 # 4)) (uQ (1 # 2)) (uQ (1 # 2))) 1 0.
Proof. exact shift_example. Qed.
Print Assumptions C160_header_refuted.
Example C160_example : runnable 2 3 pH eH (q (1 # 4)) (uQ (1 # 2)) (uQ (1 # 2)) /\
  exists bw fw y, plot_trellis false hH 2 None 0 (q (1 # 4)) (uQ (1 # 2)) (uQ (1 # 2)) = Ok (bw, fw) /\ la_header fw 1 = Some y.
Proof. destruct shift_example as [H [bw [fw [y [H1 [H2 _]]]]]]. split; [exact H|]. exists bw, fw, y. split; [exact H1|exact H2]. Qed.

(** ** C161 the edges are the possible transitions and the marked ones are the predicted path *)
Theorem C161_edges_partial : forall ext n h steps init r c0 pr er bw fw, stochastic n (h_p h) -> plot_trellis ext h steps init r c0 pr er = Ok (bw, fw) ->
  forall (dir : bool) i t j, 1 <= t \/ init = None -> ((exists b, In (link dir i t j, b) (la_edges (if dir then fw else bw))) <->
  i < n /\ t < steps /\ j < n /\ (0 < mget (h_p h) i j)%Qc).
Proof. exact trellis_edges_later. Qed.
Print Assumptions C161_edges_partial.
Theorem C161_first_missing_refuted : forall ext n h steps s r c0 pr er bw fw, stochastic n (h_p h) -> plot_trellis ext h steps (Some (S s)) r c0 pr er = Ok (bw, fw) ->
  forall (dir : bool) i j b, ~ In (link dir i 0 j, b) (la_edges (if dir then fw else bw)).
Proof. exact trellis_first_missing. Qed.
Print Assumptions C161_first_missing_refuted.
Theorem C161_first_extra_refuted : forall ext n h steps r c0 pr er bw fw, stochastic n (h_p h) -> plot_trellis ext h steps (Some 0) r c0 pr er = Ok (bw, fw) ->
  forall (dir : bool) i j, i < n -> j < n -> (0 < mget (h_p h) i j)%Qc -> exists b, In (link dir i 0 j, b) (la_edges (if dir then fw else bw)).
Proof. exact trellis_first_extra. Qed.
Print Assumptions C161_first_extra_refuted.
Theorem C161_nodes_partial : forall ext h steps init r c0 pr er bw fw, plot_trellis ext h steps init r c0 pr er = Ok (bw, fw) ->
  exists v path, viterbi (h_p h) (h_e h) (initial_distribution (nrows (h_p h)) init) (trellis_symbols h steps init r c0 pr er) = Ok (Some (v, path)) /\
  forall i t, (la_node_marked fw (i, t) = true <-> nth t path 0 = i) /\ (la_node_marked bw (i, t) = true <-> nth t path 0 = i).
Proof. exact trellis_nodes. Qed.
Print Assumptions C161_nodes_partial.
Theorem C161_marked_partial : forall ext n h steps init r c0 pr er bw fw, stochastic n (h_p h) -> plot_trellis ext h steps init r c0 pr er = Ok (bw, fw) ->
  exists v path, viterbi (h_p h) (h_e h) (initial_distribution n init) (trellis_symbols h steps init r c0 pr er) = Ok (Some (v, path)) /\
  forall (dir : bool) i t j b, (ext = true \/ dir = true \/ two_way n (h_p h)) ->
  In (link dir i t j, b) (la_edges (if dir then fw else bw)) -> (b = true <-> path_step path i t j).
Proof. exact trellis_marked. Qed.
Print Assumptions C161_marked_partial.
Theorem C161_marked_refuted : runnable 2 2 (h_p hOne) (h_e hOne) 0q (uQ (1 # 4)) (uQ (1 # 4)) /\
  exists bw fw v, viterbi (h_p hOne) (h_e hOne) (initial_distribution 2 (Some 0)) (trellis_symbols hOne 2 (Some 0) 0 0q (uQ (1 # 4)) (uQ (1 # 4))) = Ok (Some (v, [0; 0; 0])) /\
  plot_trellis false hOne 2 (Some 0) 0 0q (uQ (1 # 4)) (uQ (1 # 4)) = Ok (bw, fw) /\
  In (link false 0 1 0, false) (la_edges bw) /\ In (link false 0 0 1, true) (la_edges bw).
Proof. exact marks_example. Qed.
Print Assumptions C161_marked_refuted.
Example C161_example : exists bw fw, runnable 2 3 pH eH 0q (uQ (1 # 2)) (uQ (1 # 2)) /\ plot_trellis true hH 2 (Some 1) 0 0q (uQ (1 # 2)) (uQ (1 # 2)) = Ok (bw, fw).
Proof. exact first_example. Qed.
