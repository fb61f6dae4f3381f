(** L_GraphPlot: proofs about plot_graph. *)
From Coq Require Import QArith Qround Qcanon.
From Verif Require Import M_GraphPlot S_Struct L_Struct1 Dec.
Open Scope nat_scope.
Open Scope nat_scope.

(** ** Colours *)
Lemma colors_nth : forall c o i, o < 9 -> i < c -> nth_error (node_colors c o) i = Some ((o + i) mod 9).
Proof.
  induction c as [|c IH]; intros o i Ho Hi; [lia|]. destruct i as [|i]; cbn [node_colors nth_error].
  - rewrite Nat.add_0_r, Nat.mod_small by exact Ho. reflexivity.
  - destruct (Nat.ltb_spec 8 (o + 1)).
    + rewrite IH by lia. assert (o = 8) by lia. subst o. f_equal. replace (8 + S i) with (i + 1 * 9) by lia. rewrite Nat.mod_add by lia. reflexivity.
    + rewrite IH by lia. f_equal. f_equal. lia.
Qed.
Lemma colors_length c : forall o, length (node_colors c o) = c.
Proof. induction c as [|c IH]; intros o; cbn; [reflexivity|]. now rewrite IH. Qed.
Lemma class_color_nth i : forall classes colors k, length colors = length classes -> k < length classes -> In i (nth k classes []) ->
  (forall l, l < k -> ~ In i (nth l classes [])) -> class_color i classes colors = nth_error colors k.
Proof.
  induction classes as [|c cs IH]; intros [|a colors] k L Hk Hi Hl; cbn in L, Hk; try lia; try discriminate.
  cbn [class_color]. destruct k as [|k].
  - cbn in Hi. rewrite (proj2 (memn_In i c) Hi). reflexivity.
  - assert (N : memn i c = false) by (apply memn_false; exact (Hl 0 ltac:(lia))). rewrite N. cbn [nth_error]. apply IH; try lia.
    + exact Hi.
    + intros l Hl'. exact (Hl (S l) ltac:(lia)).
Qed.
Lemma block_at n classes i : partition_of n classes -> i < n -> exists k, k < length classes /\ In i (nth k classes []).
Proof.
  intros [_ [_ H]] Hi. apply H in Hi. apply in_concat in Hi. destruct Hi as [B [HB Hi]]. apply (In_nth _ _ []) in HB. destruct HB as [k [Hk E]]. exists k. split; [exact Hk|]. now rewrite E.
Qed.
Lemma block_unique (classes : list (list nat)) i : NoDup (concat classes) -> forall k l, k < length classes -> l < length classes -> In i (nth k classes []) -> In i (nth l classes []) -> k = l.
Proof.
  induction classes as [|c cs IH]; intros N k l Hk Hl Ik Il; [cbn in Hk; lia|]. cbn [concat] in N.
  assert (D : forall x, In x c -> ~ In x (concat cs)).
  { intros x Hx Hy. clear -N Hx Hy. induction c as [|a c IHc]; [exact Hx|]. cbn in N. inversion N as [|? ? Ha Nc]; subst. destruct Hx as [->|Hx]; [apply Ha; apply in_or_app; now right|]. apply IHc; assumption. }
  assert (N' : NoDup (concat cs)) by (clear -N; induction c as [|a c IHc]; [exact N|]; cbn in N; inversion N; auto).
  destruct k as [|k], l as [|l]; cbn in Ik, Il, Hk, Hl; try reflexivity.
  - exfalso. apply (D i Ik). apply in_concat. exists (nth l cs []). split; [apply nth_In; lia|exact Il].
  - exfalso. apply (D i Il). apply in_concat. exists (nth k cs []). split; [apply nth_In; lia|exact Ik].
  - f_equal. apply IH; auto; lia.
Qed.
Lemma node_color_at n E comps i k : scc_enum n E comps -> k < length (communicating_indices comps) -> In i (nth k (communicating_indices comps) []) -> node_color comps i = Some (k mod 9).
Proof.
  intros H Hk Hi. pose proof (communicating_listing n E comps H) as [[[_ [Nd _]] _] _]. unfold node_color.
  rewrite (class_color_nth i _ _ k); [|apply colors_length|exact Hk|exact Hi|].
  - rewrite colors_nth by lia. reflexivity.
  - intros l Hl I. assert (l = k) by (apply (block_unique _ i Nd); auto; lia). lia.
Qed.
Lemma same_color n E comps i j : scc_enum n E comps -> i < n -> j < n -> mutual n E i j -> node_color comps i = node_color comps j.
Proof.
  intros H Hi Hj M. pose proof (communicating_listing n E comps H) as [[Pt Mu] _].
  destruct (block_at n _ i Pt Hi) as [k [Hk Ik]]. assert (Jk : In j (nth k (communicating_indices comps) [])) by (apply (Mu (nth k (communicating_indices comps) []) i j); auto using nth_In).
  rewrite (node_color_at n E comps i k), (node_color_at n E comps j k); auto.
Qed.
Lemma color_iff n E comps i j : scc_enum n E comps -> length (communicating_indices comps) <= 9 -> i < n -> j < n -> (node_color comps i = node_color comps j <-> mutual n E i j).
Proof.
  intros H L9 Hi Hj. split; [|apply same_color; assumption]. pose proof (communicating_listing n E comps H) as [[Pt Mu] _].
  destruct (block_at n _ i Pt Hi) as [k [Hk Ik]]. destruct (block_at n _ j Pt Hj) as [l [Hl Il]].
  rewrite (node_color_at n E comps i k), (node_color_at n E comps j l) by assumption. rewrite !Nat.mod_small by lia. intros C. injection C as <-.
  apply (Mu (nth k (communicating_indices comps) []) i j); auto using nth_In.
Qed.
Lemma colors_shared n E comps : scc_enum n E comps -> 9 < length (communicating_indices comps) ->
  exists i j, i < n /\ j < n /\ ~ mutual n E i j /\ node_color comps i = node_color comps j.
Proof.
  intros H L9. pose proof (communicating_listing n E comps H) as [[Pt Mu] _]. set (cc := communicating_indices comps) in *. destruct Pt as [Ne [Nd Cv]].
  assert (A : forall k, k < length cc -> exists x, In x (nth k cc []) /\ x < n).
  { intros k Hk. assert (IB : In (nth k cc []) cc) by (apply nth_In, Hk). specialize (Ne _ IB). destruct (nth k cc []) as [|x B] eqn:EB; [congruence|]. exists x. split; [now left|]. apply Cv, in_concat. exists (x :: B). split; [exact IB|now left]. }
  destruct (A 0 ltac:(lia)) as [i [Ii Hi]]. destruct (A 9 ltac:(lia)) as [j [Ij Hj]]. exists i, j. split; [exact Hi|]. split; [exact Hj|]. split.
  - intros M. assert (J0 : In j (nth 0 cc [])) by (apply (Mu (nth 0 cc []) i j); auto; apply nth_In; lia). assert (9 = 0) by (apply (block_unique cc j Nd); auto; lia). lia.
  - rewrite (node_color_at n E comps i 0), (node_color_at n E comps j 9); auto; fold cc; lia.
Qed.
Lemma hmm_color_iff n i j : n <= 9 -> i < n -> j < n -> (hmm_color n i = hmm_color n j <-> i = j).
Proof.
  intros L9 Hi Hj. split; [|intros ->; reflexivity]. unfold hmm_color. rewrite !colors_nth by lia. rewrite !Nat.mod_small by lia. intros C. injection C as C. exact C.
Qed.
Lemma hmm_color_shared n : 9 < n -> hmm_color n 0 = hmm_color n 9.
Proof. intros H. unfold hmm_color. rewrite !colors_nth by lia. reflexivity. Qed.
Lemma rectangular_iff n p comps i : wf n n p -> scc_enum n (edge p) comps -> i < n -> (rectangular p comps i = true <-> exists y, reach n (edge p) i y /\ ~ reach n (edge p) y i).
Proof.
  intros W H Hi. unfold rectangular. rewrite memn_In, (transient_state_in n p comps i W H). tauto.
Qed.

Lemma Q2Qc_le q x : (q <= this x)%Q <-> (Q2Qc q <= x)%Qc.
Proof. unfold Qcle. change (this (Q2Qc q)) with (Qred q). pose proof (Qred_correct q) as E. split; intros H; [apply Qle_trans with q; [apply Qle_lteq; right; exact E|exact H]|apply Qle_trans with (Qred q); [apply Qle_lteq; right; symmetry; exact E|exact H]]. Qed.
Lemma Q2Qc_gt q x : (this x < q)%Q <-> (x < Q2Qc q)%Qc.
Proof. unfold Qclt. change (this (Q2Qc q)) with (Qred q). pose proof (Qred_correct q) as E. split; intros H; [apply Qlt_le_trans with q; [exact H|apply Qle_lteq; right; symmetry; exact E]|apply Qlt_le_trans with (Qred q); [exact H|apply Qle_lteq; right; exact E]]. Qed.
Lemma Q2Qc_lt q x : (q < this x)%Q <-> (Q2Qc q < x)%Qc.
Proof. unfold Qclt. change (this (Q2Qc q)) with (Qred q). pose proof (Qred_correct q) as E. split; intros H; [apply Qle_lt_trans with q; [apply Qle_lteq; right; exact E|exact H]|apply Qle_lt_trans with (Qred q); [apply Qle_lteq; right; symmetry; exact E|exact H]]. Qed.
Lemma Zlt_Q2Qc a b : (a < b)%Z <-> (Q2Qc (inject_Z a) < Q2Qc (inject_Z b))%Qc.
Proof.
  rewrite <- Q2Qc_lt. change (this (Q2Qc (inject_Z b))) with (Qred (inject_Z b)). rewrite Zlt_Qlt. pose proof (Qred_correct (inject_Z b)) as E. split; intros H; eapply Qlt_le_trans; try exact H; apply Qle_lteq; right; [symmetry|]; exact E.
Qed.
Lemma Q2Qc_succ f : Q2Qc (inject_Z (f + 1)) = (Q2Qc (inject_Z f) + 1)%Qc.
Proof.
  apply Qc_is_canon. change (Qred (inject_Z (f + 1)) == Qred (Qred (inject_Z f) + 1))%Q. rewrite !Qred_correct, inject_Z_plus. reflexivity.
Qed.
(** ** Labels *)
Lemma nearest_half x : (x - Q2Qc (1 # 2) <= Q2Qc (inject_Z (nearest x)))%Qc /\ (Q2Qc (inject_Z (nearest x)) <= x + Q2Qc (1 # 2))%Qc.
Proof.
  unfold nearest. cbv zeta. set (f := Qfloor (this x)).
  assert (F1 : (Q2Qc (inject_Z f) <= x)%Qc) by (apply (proj1 (Q2Qc_le _ _)), Qfloor_le).
  assert (E1 := Q2Qc_succ f).
  assert (F2 : (x < Q2Qc (inject_Z f) + 1)%Qc) by (rewrite <- E1; apply (proj1 (Q2Qc_gt _ _)), Qlt_floor).
  destruct (Qcltb_spec (x - Q2Qc (inject_Z f)) (Q2Qc (1 # 2))) as [H|H]; [split; qclra|].
  destruct (Qcltb_spec (Q2Qc (1 # 2)) (x - Q2Qc (inject_Z f))) as [H'|H']; [rewrite E1; split; qclra|].
  destruct (Z.even f); rewrite ?E1; split; qclra.
Qed.

Lemma ten_pos m : (0 < ten_to m)%Qc.
Proof. unfold ten_to. apply (proj1 (Zlt_Q2Qc 0 _)). apply Z.pow_pos_nonneg; lia. Qed.
(** A label is within half a unit of its last digit. *)
Lemma label_close m x : (Qcabs (Q2Qc (inject_Z (edge_label m x)) / ten_to m - x) <= Q2Qc (1 # 2) / ten_to m)%Qc.
Proof.
  pose proof (ten_pos m) as T. pose proof (nearest_half (x * ten_to m)) as [A B]. fold (edge_label m x) in A, B. set (z := Q2Qc (inject_Z (edge_label m x))) in *. set (t := ten_to m) in *.
  assert (Ti : (0 < / t)%Qc) by (rewrite <- (Qcmult_1_l (/ t)); apply Qc_div_pos; [reflexivity|exact T]).
  assert (Tx : (x * t / t = x)%Qc) by (apply Qcdiv_mult_l; intro E; rewrite E in T; discriminate T).
  assert (A' : ((x * t - Q2Qc (1 # 2)) / t <= z / t)%Qc) by (unfold Qcdiv; apply Qcmult_le_compat_r; [exact A|apply Qclt_le_weak, Ti]).
  assert (B' : (z / t <= (x * t + Q2Qc (1 # 2)) / t)%Qc) by (unfold Qcdiv; apply Qcmult_le_compat_r; [exact B|apply Qclt_le_weak, Ti]).
  assert (EA : ((x * t - Q2Qc (1 # 2)) / t = x - Q2Qc (1 # 2) / t)%Qc) by (rewrite <- Tx at 2; unfold Qcdiv; ring).
  assert (EB : ((x * t + Q2Qc (1 # 2)) / t = x + Q2Qc (1 # 2) / t)%Qc) by (rewrite <- Tx at 2; unfold Qcdiv; ring).
  rewrite EA in A'. rewrite EB in B'. unfold Qcabs. destruct (Qcleb_spec 0 (z / t - x)); qclra.
Qed.
Lemma fold_min_le : forall l a x, In x (a :: l) -> (fold_left Qcmin l a <= x)%Qc.
Proof.
  induction l as [|b l IH]; intros a x [->|H]; cbn [fold_left]; try contradiction; [apply Qcle_refl| |].
  - eapply Qcle_trans; [apply IH; left; reflexivity|]. unfold Qcmin. destruct (Qcleb_spec x b); [apply Qcle_refl|qclra].
  - destruct H as [->|H]; [|apply IH; now right]. eapply Qcle_trans; [apply IH; left; reflexivity|]. unfold Qcmin. destruct (Qcleb_spec a x); [assumption|apply Qcle_refl].
Qed.
Lemma fold_min_in : forall l a, In (fold_left Qcmin l a) (a :: l).
Proof.
  induction l as [|b l IH]; intros a; cbn [fold_left]; [now left|]. destruct (IH (Qcmin a b)) as [E|E]; [|right; now right].
  rewrite <- E. unfold Qcmin. destruct (Qcleb a b); [now left|right; now left].
Qed.
Lemma mat_min_le n m M i j : wf n m M -> i < n -> j < m -> (mat_min M <= mget M i j)%Qc.
Proof.
  intros W Hi Hj. assert (I : In (mget M i j) (concat M)).
  { apply in_concat. exists (nth i M []). split; [apply nth_In; rewrite (proj1 W); exact Hi|]. unfold mget. apply nth_In. rewrite (proj2 W); [exact Hj|]. apply nth_In. rewrite (proj1 W). exact Hi. }
  unfold mat_min. destruct (concat M) as [|a l]; [destruct I|]. apply fold_min_le, I.
Qed.
Lemma mat_min_entry n m M : wf n m M -> 0 < n -> 0 < m -> exists i j, i < n /\ j < m /\ mat_min M = mget M i j.
Proof.
  intros W Hn Hm. assert (I : In (mat_min M) (concat M)).
  { unfold mat_min. destruct (concat M) as [|a l] eqn:E; [|apply fold_min_in]. exfalso.
    destruct M as [|r M]; [destruct W as [W _]; cbn in W; lia|]. destruct W as [_ W]. specialize (W r (or_introl eq_refl)). cbn in E. apply app_eq_nil in E. destruct E as [-> _]. cbn in W. lia. }
  apply in_concat in I. destruct I as [r [Hr Ix]]. apply (In_nth _ _ []) in Hr. destruct Hr as [i [Hi Er]]. apply (In_nth _ _ 0q) in Ix. destruct Ix as [j [Hj Ej]].
  exists i, j. split; [rewrite <- (proj1 W); exact Hi|]. split; [|unfold mget; now rewrite Er]. rewrite <- (proj2 W r); [exact Hj|]. rewrite <- Er. apply nth_In, Hi.
Qed.
Lemma digits_ok m d : (Q2Qc (1 # 10000) <= m)%Qc -> digits_of m <= d -> d <= 4 -> (1 <= m * ten_to d)%Qc.
Proof.
  intros H D1 D2. unfold digits_of in D1.
  destruct (Qceqb_spec m 0) as [->|_]; [exfalso; revert H; apply Qclt_not_le; reflexivity|].
  assert (T : d = 0 \/ d = 1 \/ d = 2 \/ d = 3 \/ d = 4) by lia.
  assert (T0 : ten_to 0 = 1q) by (apply Qceqb_eq; vm_compute; reflexivity). assert (T1 : ten_to 1 = Q2Qc 10) by (apply Qceqb_eq; vm_compute; reflexivity).
  assert (T2 : ten_to 2 = Q2Qc 100) by (apply Qceqb_eq; vm_compute; reflexivity). assert (T3 : ten_to 3 = Q2Qc 1000) by (apply Qceqb_eq; vm_compute; reflexivity).
  assert (T4 : ten_to 4 = Q2Qc 10000) by (apply Qceqb_eq; vm_compute; reflexivity).
  destruct (Qcleb_spec 1 m) as [H1|H1]; [|destruct (Qcleb_spec (Q2Qc (1 # 10)) m) as [H2|H2]; [|destruct (Qcleb_spec (Q2Qc (1 # 100)) m) as [H3|H3]; [|destruct (Qcleb_spec (Q2Qc (1 # 1000)) m) as [H4|H4]]]];
    destruct T as [->|[->|[->|[->| ->]]]]; try (exfalso; lia); rewrite ?T0, ?T1, ?T2, ?T3, ?T4; qclra.
Qed.
Lemma fold_max_le l a x : In x (a :: l) -> x <= fold_left Nat.max l a.
Proof.
  revert a x; induction l as [|b l IH]; intros a x [->|H]; cbn [fold_left]; try contradiction; [lia| |].
  - etransitivity; [|apply IH; left; reflexivity]. lia.
  - destruct H as [->|H]; [|apply IH; now right]. etransitivity; [|apply IH; left; reflexivity]. lia.
Qed.
Lemma digits_le m : digits_of m <= 4.
Proof. unfold digits_of. repeat match goal with |- context [if ?b then _ else _] => destruct b end; lia. Qed.
Lemma magnitude_ge elements e : In e elements -> digits_of (mat_min e) <= magnitude elements /\ magnitude elements <= 4.
Proof.
  intros I. unfold magnitude. pose proof (digits_le (mat_min e)).
  assert (digits_of (mat_min e) <= fold_left Nat.max (map (fun e => digits_of (mat_min e)) elements) 0) by (apply fold_max_le; right; apply in_map_iff; exists e; auto). lia.
Qed.
Lemma nearest_pos x : (1 <= x)%Qc -> (0 < nearest x)%Z.
Proof.
  intros H. pose proof (proj1 (nearest_half x)) as A. assert (B : (0 < Q2Qc (inject_Z (nearest x)))%Qc) by qclra.
  exact (proj2 (Zlt_Q2Qc 0 _) B).
Qed.
(** With no entry below 1e-4 in any of the matrices every label is positive. *)
Lemma label_positive elements e n m : In e elements -> wf n m e -> (forall i j, i < n -> j < m -> (Q2Qc (1 # 10000) <= mget e i j)%Qc) ->
  forall i j, i < n -> j < m -> (0 < edge_label (magnitude elements) (mget e i j))%Z.
Proof.
  intros I W H i j Hi Hj. destruct (magnitude_ge elements e I) as [D1 D2]. destruct (mat_min_entry n m e W) as [a [b [Ha [Hb E]]]]; [lia|lia|].
  apply nearest_pos. apply Qcle_trans with (mat_min e * ten_to (magnitude elements))%Qc.
  - apply digits_ok; auto. rewrite E. apply H; assumption.
  - apply Qcmult_le_compat_r; [apply (mat_min_le n m); assumption|apply Qclt_le_weak, ten_pos].
Qed.
Lemma edges_in n m p k i j z : wf n m p -> In (i, j, z) (labelled_edges k p m) <-> i < n /\ j < m /\ (0 < mget p i j)%Qc /\ z = edge_label k (mget p i j).
Proof.
  intros W. unfold labelled_edges, nrows. rewrite (proj1 W), in_flat_map. split.
  - intros [a [Ha H]]. apply in_map_iff in H. destruct H as [b [E H]]. injection E as -> -> <-. apply filter_In in H. destruct H as [Hb Hp]. apply in_seq in Ha, Hb. repeat split; try lia. now apply Qcltb_lt.
  - intros [Hi [Hj [Hp ->]]]. exists i. split; [apply in_seq; lia|]. apply in_map_iff. exists j. split; [reflexivity|]. apply filter_In. split; [apply in_seq; lia|now apply Qcltb_lt].
Qed.
Lemma chain_edges_in n p i j z : wf n n p -> In (i, j, z) (chain_edges p) <-> i < n /\ j < n /\ (0 < mget p i j)%Qc /\ z = edge_label (magnitude [p]) (mget p i j).
Proof. intros W. unfold chain_edges. rewrite (wf_nrows n n p W). apply edges_in, W. Qed.
Lemma hmm_edges_in n k p e i j z : 0 < n -> wf n n p -> wf n k e ->
  (In (i, j, z) (fst (hmm_edges p e)) <-> i < n /\ j < n /\ (0 < mget p i j)%Qc /\ z = edge_label (magnitude [p; e]) (mget p i j)) /\
  (In (i, j, z) (snd (hmm_edges p e)) <-> i < n /\ j < k /\ (0 < mget e i j)%Qc /\ z = edge_label (magnitude [p; e]) (mget e i j)).
Proof.
  intros Hn W We. unfold hmm_edges. cbn [fst snd]. rewrite (wf_nrows n n p W), (wf_ncols n k e We Hn). split; [apply edges_in, W|apply edges_in, We].
Qed.
Lemma zero_magnitude n m p i j : wf n m p -> i < n -> j < m -> mget p i j = 0q -> (forall a b, a < n -> b < m -> (0 <= mget p a b)%Qc) -> magnitude [p] = 1.
Proof.
  intros W Hi Hj E H. unfold magnitude. cbn [map fold_left]. destruct (mat_min_entry n m p W) as [a [b [Ha [Hb Em]]]]; [lia|lia|].
  assert (Z : mat_min p = 0q). { apply Qcle_antisym; [rewrite <- E; apply (mat_min_le n m); assumption|rewrite Em; apply H; assumption]. }
  rewrite Z. reflexivity.
Qed.
(** One zero anywhere, and every probability below 0.05 is labelled 0.0. *)
Lemma zero_label n p i j : stochastic n p -> i < n -> j < n -> mget p i j = 0q ->
  forall a b, a < n -> b < n -> (0 < mget p a b)%Qc -> (mget p a b < Q2Qc (1 # 20))%Qc -> In (a, b, 0%Z) (chain_edges p) /\ magnitude [p] = 1.
Proof.
  intros St Hi Hj E a b Ha Hb Hp Hl. destruct St as [W [Nn _]].
  assert (M : magnitude [p] = 1) by (apply (zero_magnitude n n p i j); auto). split; [|exact M].
  apply (chain_edges_in n); [exact W|]. split; [exact Ha|]. split; [exact Hb|]. split; [exact Hp|]. rewrite M.
  pose proof (nearest_half (mget p a b * ten_to 1)) as [A B]. fold (edge_label 1 (mget p a b)) in A, B.
  assert (T1 : ten_to 1 = Q2Qc 10) by (apply Qceqb_eq; vm_compute; reflexivity). rewrite T1 in A, B.
  assert (A' : (- (1) < Q2Qc (inject_Z (edge_label 1 (mget p a b))))%Qc) by qclra. assert (B' : (Q2Qc (inject_Z (edge_label 1 (mget p a b))) < 1)%Qc) by qclra.
  assert (A2 : (-1 < edge_label 1 (mget p a b))%Z) by exact (proj2 (Zlt_Q2Qc (-1) _) A').
  assert (B2 : (edge_label 1 (mget p a b) < 1)%Z) by exact (proj2 (Zlt_Q2Qc _ 1) B'). lia.
Qed.
