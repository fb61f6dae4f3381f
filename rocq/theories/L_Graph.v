(** L_Graph: proofs about graphs. *)
From Verif Require Import S_Graph L_Valid1 L_Valid2 L_Io1.
Open Scope nat_scope.
Open Scope res_scope.

Lemma num_isclose_tiny s : (0 <= s)%Qc -> isclose s 0 = Qcleb s tiny.
Proof.
  intros H. apply eq_true_iff_eq. rewrite isclose_0, Qcleb_le. rewrite Qcabs_eq_nonneg by exact H. reflexivity.
Qed.
Lemma row_sum_fin n m (W : mat) i : wf n m W -> i < n -> num_sum (map Fin (nth i W [])) = Fin (sumn m (fun j => mget W i j)).
Proof.
  intros [H1 H2] Hi. rewrite num_sum_fin, fold_plus_sumn. rewrite (H2 (nth i W [])) by (apply nth_In; lia). reflexivity.
Qed.
(** dividing the rows of a matrix of finite non-negative numbers *)
Lemma normalise_ok n m (W : mat) : 0 < m -> wf n m W -> (forall i j, i < n -> j < m -> (0 <= mget W i j)%Qc) ->
  exists P, normalise m (map (map Fin) W) = map (map Fin) P /\ rows_divided n m W P.
Proof.
  intros Hm HW Hpos. set (s i := sumn m (fun j => mget W i j)).
  set (P := mk n m (fun i j => if Qcleb (s i) tiny then (1 / Qcn m)%Qc else (mget W i j / s i)%Qc)). exists P.
  assert (Hs : forall i, i < n -> (0 <= s i)%Qc). { intros i Hi. apply sumn_nonneg. intros j Hj. apply Hpos; assumption. }
  split.
  - unfold normalise. apply (nth_ext _ _ [] []).
    + rewrite !map_length. unfold P, mk, tab. rewrite map_length, seq_length. apply HW.
    + intros i Hi. rewrite !map_length in Hi. assert (Hin : i < n) by (destruct HW; lia).
      change (@nil num) with (normalise_row 0 []) at 1 || idtac.
      rewrite (nth_indep _ [] (normalise_row m (map Fin []))) by (rewrite !map_length; exact Hi). rewrite !map_nth.
      change (@nil num) with (map Fin []). rewrite (map_nth (map Fin)).
      unfold normalise_row. rewrite (row_sum_fin n m) by assumption. cbn [num_isclose]. rewrite num_isclose_tiny by (apply Hs; exact Hin). fold (s i).
      apply (nth_ext _ _ NaN NaN).
      * rewrite map_length. destruct (wf_mk n m (fun i j => if Qcleb (s i) tiny then (1 / Qcn m)%Qc else (mget W i j / s i)%Qc)) as [L1 L2]. fold P in L1, L2. rewrite (L2 (nth i P [])) by (apply nth_In; lia).
        destruct (Qcleb (s i) tiny); [apply repeat_length|]. rewrite !map_length. destruct HW as [_ H2]. apply H2, nth_In. exact Hi.
      * intros j Hj. assert (Hjm : j < m). { destruct (Qcleb (s i) tiny); [rewrite repeat_length in Hj; exact Hj|]. rewrite !map_length in Hj. destruct HW as [_ H2]. rewrite (H2 (nth i W [])) in Hj by (apply nth_In; exact Hi). exact Hj. }
        replace (nth j (map Fin (nth i P [])) NaN) with (Fin (mget P i j)).
        2:{ symmetry. pose proof (fin_get n m P i j (wf_mk _ _ _) Hin Hjm) as G. unfold nget in G. change (@nil num) with (map Fin []) in G. rewrite map_nth in G. exact G. }
        unfold P. rewrite mget_mk by assumption. destruct (Qcleb (s i) tiny) eqn:E.
        -- rewrite (nth_indep _ NaN (Fin (1 / Qcn m)%Qc)) by (rewrite repeat_length; exact Hjm). apply nth_repeat.
        -- rewrite (nth_indep _ NaN (num_div NaN (Fin (s i)))) by exact Hj. rewrite (map_nth (fun x => num_div x (Fin (s i)))).
           pose proof (fin_get n m W i j HW Hin Hjm) as G. unfold nget in G. change (@nil num) with (map Fin []) in G. rewrite map_nth in G. rewrite G.
           cbn [num_div]. destruct (Qceqb (s i) 0) eqn:E0; [|reflexivity]. apply Qceqb_eq in E0. rewrite E0 in E. vm_compute in E. discriminate.
  - split; [apply wf_mk|]. intros i Hi. cbv zeta. fold (s i). split.
    + intros Ht j Hj. unfold P. rewrite mget_mk by assumption. destruct (Qcleb (s i) tiny) eqn:E; [apply Qcleb_le in E; apply Qclt_not_le in Ht; contradiction|].
      field. intros C. rewrite C in Ht. vm_compute in Ht. discriminate.
    + intros Ht j Hj. unfold P. rewrite mget_mk by assumption. replace (Qcleb (s i) tiny) with true by (symmetry; apply Qcleb_le; exact Ht).
      field. pose proof (Qcn_pos m Hm) as G. intros C. rewrite C in G. discriminate G.
Qed.

Lemma nodes_label g l i : nodes_named g l -> i < length l -> label g i = nth i l EmptyString.
Proof.
  intros H Hi. unfold label. pose proof (f_equal (fun q => nth i q PNone) H) as G. cbv beta in G.
  rewrite (nth_indep (map PStr l) PNone (PStr EmptyString)) in G by (rewrite map_length; exact Hi). rewrite map_nth in G.
  change PNone with (fst (PNone, @None pyval)) in G. rewrite (map_nth fst) in G. rewrite G. reflexivity.
Qed.
Lemma nodes_as_str g l : nodes_named g l -> map (fun x => as_str (fst x)) (g_nodes g) = l.
Proof. intros H. rewrite <- (map_map fst as_str). unfold nodes_named in H. rewrite H, map_map. cbn. apply map_id. Qed.
Lemma fill_graph_ok g l n : length l = n -> NoDup l -> (forall i, i < n -> label g i = nth i l EmptyString) -> forall es, NoDup (map fst es) ->
  (forall i j w, In (i, j, w) es -> i < n /\ j < n) -> forall p, shape n n p ->
  exists q, fill_graph g l es p = Ok q /\ shape n n q /\ (forall i j w, In (i, j, w) es -> nget q i j = w) /\
    (forall i j, i < n -> j < n -> (forall w, ~ In (i, j, w) es) -> nget q i j = nget p i j).
Proof.
  intros HL HN Hlab. induction es as [|[[a b] w] es IH]; intros HD HR p Hp.
  - exists p. split; [reflexivity|]. split; [exact Hp|]. split; [intros i j w []|]. reflexivity.
  - destruct (HR a b w (or_introl eq_refl)) as [Ha Hb]. inversion HD as [|? ? Hx HD']; subst.
    destruct (IH HD' (fun i j w' K => HR i j w' (or_intror K)) (set2 a b w p)) as (q & E & Sq & G1 & G2); [apply set2_shape; assumption|].
    exists q. split; [|split; [exact Sq|split]].
    + cbn [fill_graph]. rewrite !Hlab by assumption. rewrite !pos_nth by assumption. cbn [bind]. exact E.
    + intros i j w' [K|K]; [|apply G1; exact K]. inversion K; subst. rewrite G2; [|assumption|assumption|].
      * rewrite (set2_get (length l) (length l)) by assumption. rewrite !Nat.eqb_refl. reflexivity.
      * intros w'' C. apply Hx. apply (in_map fst) in C. exact C.
    + intros i j Hi Hj K. rewrite G2; [|assumption|assumption|intros w' C; apply (K w'); right; exact C].
      rewrite (set2_get (length l) (length l)) by assumption. destruct (Nat.eqb_spec i a) as [->|]; [|reflexivity]. destruct (Nat.eqb_spec j b) as [->|]; [|reflexivity].
      exfalso. apply (K w). left. reflexivity.
Qed.
Lemma number_value_float v x : number_value v x -> is_number v = true /\ as_float v = x.
Proof. intros [->|(z & -> & ->)]; split; reflexivity. Qed.

Lemma from_graph_ok n g l W : digraph n g -> 2 <= n -> nodes_named g l -> names_ok n l -> weights_of n g W ->
  exists P, from_graph (Some g) = Ok (mkrobj (map (map Fin) P) l) /\ rows_divided n n W P.
Proof.
  intros (HM & Hlen & HN & HE & HB) Hn Hnm (HL & HD & Hbl) (HW & HWe & HW0).
  assert (Hpos : forall i j, i < n -> j < n -> (0 <= mget W i j)%Qc).
  { intros i j Hi Hj. destruct (in_dec (fun a b : nat * nat => ltac:(decide equality; apply Nat.eq_dec)) (i, j) (map fst (g_edges g))) as [I|I].
    - apply in_map_iff in I. destruct I as ([ij a] & E & I). cbn in E. subst ij. destruct (HWe i j a I) as (v & _ & _ & K). apply Qclt_le_weak. exact K.
    - rewrite HW0 by (auto; intros a C; apply I; apply (in_map fst) in C; exact C). apply Qcle_refl. }
  destruct (normalise_ok n n W ltac:(lia) HW Hpos) as (P & EP & HP). exists P. split; [|exact HP].
  unfold from_graph, v_graph, simple_edges. rewrite HM, Hlen. replace (Nat.leb 2 n) with true by (symmetry; apply Nat.leb_le; exact Hn).
  replace (forallb (fun x : pyval * option pyval => is_string (fst x)) (g_nodes g)) with true.
  2:{ symmetry. apply forallb_forall. intros x Hx. apply (in_map fst) in Hx. rewrite Hnm in Hx. apply in_map_iff in Hx. destruct Hx as (s & E & Hs). rewrite <- E. apply Hbl. exact Hs. }
  replace (forallb (fun e : gedge => is_number (edge_weight e) && num_pos (as_float (edge_weight e))) (g_edges g)) with true.
  2:{ symmetry. apply forallb_forall. intros [[i j] a] Hx. destruct (HWe i j a Hx) as (v & Ev & Nv & Pv). unfold edge_weight. cbn [snd]. rewrite Ev. apply number_value_float in Nv. destruct Nv as [-> ->]. cbn. apply Qcltb_lt. exact Pv. }
  cbn [bind fst snd]. rewrite (nodes_as_str g l Hnm), HL.
  destruct (fill_graph_ok g l n HL HD (fun i Hi => nodes_label g l i Hnm ltac:(lia)) (map (fun e : gedge => (fst e, as_float (edge_weight e))) (g_edges g))) with (p := nzeros n n) as (q & Eq & Sq & G1 & G2).
  - rewrite map_map. exact HE.
  - intros i j w I. apply in_map_iff in I. destruct I as ([ij a] & E & I). cbn in E. inversion E; subst. apply HB with a. exact I.
  - apply nzeros_shape.
  - match goal with |- bind ?X _ = _ => replace X with (Ok q) by (symmetry; exact Eq) end. cbn [bind]. replace q with (map (map Fin) W); [rewrite EP; reflexivity|].
    apply (nmat_ext n n); [apply fin_shape; exact HW|exact Sq|]. intros i j Hi Hj. rewrite (fin_get n n) by assumption.
    destruct (in_dec (fun a b : nat * nat => ltac:(decide equality; apply Nat.eq_dec)) (i, j) (map fst (g_edges g))) as [I|I].
    + apply in_map_iff in I. destruct I as ([ij a] & E & I). cbn in E. subst ij. destruct (HWe i j a I) as (v & Ev & Nv & _). symmetry. apply G1.
      apply in_map_iff. exists (i, j, a). split; [|exact I]. unfold edge_weight. cbn. rewrite Ev. apply number_value_float in Nv. destruct Nv as [_ ->]. reflexivity.
    + rewrite G2; [rewrite nzeros_get by assumption|assumption|assumption|].
      * rewrite HW0 by (auto; intros a C; apply I; apply (in_map fst) in C; exact C). reflexivity.
      * intros w C. apply I. apply (in_map fst) in C. rewrite map_map in C. exact C.
Qed.

(** the divided rows are distributions *)
Lemma rows_divided_stochastic n m W P : 0 < m -> (forall i j, i < n -> j < m -> (0 <= mget W i j)%Qc) -> rows_divided n m W P -> row_stochastic n m P.
Proof.
  intros Hm Hpos (HP & H). split; [exact HP|]. assert (Ht : (0 < tiny)%Qc) by reflexivity. split.
  - intros i j Hi Hj. destruct (H i Hi) as [H1 H2]. cbv zeta in *. set (s := sumn m (fun j => mget W i j)) in *. destruct (Qclt_le_dec tiny s) as [L|L].
    + specialize (H1 L j Hj). specialize (Hpos i j Hi Hj). destruct (Qclt_le_dec (mget P i j) 0) as [C|C]; [exfalso|exact C].
      assert (0 < s)%Qc by (apply Qclt_trans with tiny; assumption). rewrite <- H1 in Hpos. clear - C H0 Hpos. qcnra.
    + specialize (H2 L j Hj). pose proof (Qcn_pos m Hm) as G. destruct (Qclt_le_dec (mget P i j) 0) as [C|C]; [exfalso|exact C]. clear - C H2 G. qcnra.
  - intros i Hi. destruct (H i Hi) as [H1 H2]. cbv zeta in *. set (s := sumn m (fun j => mget W i j)) in *. destruct (Qclt_le_dec tiny s) as [L|L].
    + assert (Hs : (0 < s)%Qc) by (apply Qclt_trans with tiny; assumption).
      assert (E : (s * sumn m (fun j => mget P i j) = s)%Qc).
      { rewrite <- sumn_mul_l. transitivity (sumn m (fun j => mget W i j)); [|reflexivity]. apply sumn_ext. intros j Hj. rewrite <- (H1 L j Hj). ring. }
      destruct (Qc_eq_dec (sumn m (fun j => mget P i j)) 1) as [K|K]; [exact K|exfalso]. apply K.
      transitivity ((s * sumn m (fun j => mget P i j)) / s)%Qc; [field; intros C; rewrite C in Hs; discriminate Hs|]. rewrite E. field. intros C; rewrite C in Hs; discriminate Hs.
    + pose proof (Qcn_pos m Hm) as G. assert (Hne : Qcn m <> 0q) by (intros C; rewrite C in G; discriminate G).
      transitivity (sumn m (fun _ => 1 / Qcn m)%Qc); [|rewrite sumn_const_n; field; exact Hne].
      apply sumn_ext. intros j Hj. specialize (H2 L j Hj). rewrite <- H2. field. exact Hne.
Qed.
Lemma weights_nonneg n g W : weights_of n g W -> forall i j, i < n -> j < n -> (0 <= mget W i j)%Qc.
Proof.
  intros (HW & HWe & HW0) i j Hi Hj. destruct (in_dec (fun a b : nat * nat => ltac:(decide equality; apply Nat.eq_dec)) (i, j) (map fst (g_edges g))) as [I|I].
  - apply in_map_iff in I. destruct I as ([ij a] & E & I). cbn in E. subst ij. destruct (HWe i j a I) as (v & _ & _ & K). apply Qclt_le_weak. exact K.
  - rewrite HW0 by (auto; intros a C; apply I; apply (in_map fst) in C; exact C). apply Qcle_refl.
Qed.
Lemma from_graph_stochastic n g l W : digraph n g -> 2 <= n -> nodes_named g l -> names_ok n l -> weights_of n g W ->
  exists P, from_graph (Some g) = Ok (mkrobj (map (map Fin) P) l) /\ stochastic n P.
Proof.
  intros H1 H2 H3 H4 H5. destruct (from_graph_ok n g l W H1 H2 H3 H4 H5) as (P & E & HP). exists P. split; [exact E|].
  apply (rows_divided_stochastic n n W); [lia|apply (weights_nonneg n g); exact H5|exact HP].
Qed.

(** the graph of a chain *)
Lemma to_graph_edges c i j a : In (i, j, a) (g_edges (to_graph c)) <->
  i < length (ch_states c) /\ j < length (ch_states c) /\ (0 < mget (ch_p c) i j)%Qc /\ a = (Some (PFloat (Fin (mget (ch_p c) i j))), None).
Proof.
  unfold to_graph. cbn [g_edges]. rewrite in_flat_map. split.
  - intros (i' & Hi & H). apply in_seq in Hi. apply in_flat_map in H. destruct H as (j' & Hj & H). apply in_seq in Hj. destruct (Qcltb 0 (mget (ch_p c) i' j')) eqn:E; [|destruct H].
    destruct H as [H|[]]. inversion H; subst. apply Qcltb_lt in E. split; [lia|]. split; [lia|]. auto.
  - intros (Hi & Hj & HP & ->). exists i. split; [apply in_seq; lia|]. apply in_flat_map. exists j. split; [apply in_seq; lia|]. apply Qcltb_lt in HP. rewrite HP. left. reflexivity.
Qed.
Lemma flat_map_fst_nodup {A} (f : nat -> nat -> bool) (h : nat -> nat -> A) i l : NoDup l -> NoDup (map fst (flat_map (fun j => if f i j then [(i, j, h i j)] else []) l)).
Proof.
  intros HN. rewrite map_flat_map. apply nodup_flat_map; [exact HN| |].
  - intros j _. destruct (f i j); cbn; repeat constructor. intros [].
  - intros x y z _ _ Hx Hy. destruct (f i x), (f i y); cbn in Hx, Hy; try contradiction. destruct Hx as [Hx|[]], Hy as [Hy|[]]. congruence.
Qed.
Lemma to_graph_ok n c : 2 <= n -> wf n n (ch_p c) -> (forall i j, i < n -> j < n -> (0 <= mget (ch_p c) i j)%Qc) -> names_ok n (ch_states c) ->
  digraph n (to_graph c) /\ nodes_named (to_graph c) (ch_states c) /\ weights_of n (to_graph c) (ch_p c).
Proof.
  intros Hn HW Hpos (HL & HN & _). assert (Hnm : nodes_named (to_graph c) (ch_states c)) by (unfold nodes_named, to_graph; cbn [g_nodes]; rewrite map_map; reflexivity).
  split; [split; [reflexivity|split; [|split; [|split]]]|split; [exact Hnm|split; [exact HW|split]]].
  - unfold to_graph. cbn [g_nodes]. rewrite map_length. exact HL.
  - rewrite Hnm. apply nodup_map_inj; [exact HN|]. intros x y _ _ E. congruence.
  - unfold to_graph. cbn [g_edges]. rewrite map_flat_map. apply nodup_flat_map; [apply seq_NoDup| |].
    + intros i _. apply (flat_map_fst_nodup (fun i j => Qcltb 0 (mget (ch_p c) i j)) (fun i j => (Some (PFloat (Fin (mget (ch_p c) i j))), @None pyval))). apply seq_NoDup.
    + intros x y z _ _ Hx Hy. apply in_map_iff in Hx. destruct Hx as (e & Ex & Hx). apply in_flat_map in Hx. destruct Hx as (j & _ & Hx). destruct (Qcltb 0 (mget (ch_p c) x j)); [|destruct Hx]; destruct Hx as [Hx|[]].
      apply in_map_iff in Hy. destruct Hy as (e' & Ey & Hy). apply in_flat_map in Hy. destruct Hy as (j' & _ & Hy). destruct (Qcltb 0 (mget (ch_p c) y j')); [|destruct Hy]; destruct Hy as [Hy|[]]. subst. cbn in Ey. congruence.
  - intros i j a H. apply to_graph_edges in H. lia.
  - intros i j a H. apply to_graph_edges in H. destruct H as (Hi & Hj & HP & ->). eexists. split; [reflexivity|]. split; [left; reflexivity|exact HP].
  - intros i j Hi Hj H. destruct (Qclt_le_dec 0 (mget (ch_p c) i j)) as [K|K].
    + exfalso. eapply H. apply to_graph_edges. rewrite HL. split; [exact Hi|]. split; [exact Hj|]. split; [exact K|reflexivity].
    + apply Qcle_antisym; [exact K|]. apply Hpos; assumption.
Qed.
Lemma graph_round_trip_any n c : accepted_chain n c -> exists P, from_graph (Some (to_graph c)) = Ok (mkrobj (map (map Fin) P) (ch_states c)) /\
  wf n n P /\ forall i j, i < n -> j < n -> (mget P i j * sumn n (fun j => mget (ch_p c) i j))%Qc = mget (ch_p c) i j.
Proof.
  intros (Hn & HW & HP & HS & HN). destruct (to_graph_ok n c Hn HW (fun i j Hi Hj => proj1 (HP i j Hi Hj)) HN) as (H1 & H2 & H3).
  destruct (from_graph_ok n _ _ _ H1 Hn H2 HN H3) as (P & E & HPw & HD). exists P. split; [exact E|]. split; [exact HPw|]. intros i j Hi Hj. apply HD; [exact Hi| |exact Hj].
  specialize (HS i Hi). apply proj1 in HS. assert (HT : tolerance = Q2Qc (1001 # 100000000)) by (apply Qc_is_canon; reflexivity). rewrite HT in HS.
  apply Qclt_le_trans with (1 - Q2Qc (1001 # 100000000))%Qc; [reflexivity|]. revert HS. generalize (sumn n (fun j0 : nat => mget (ch_p c) i j0)). intros s. clear. unfold tiny. intros. qclra.
Qed.
Lemma graph_round_trip n c : 2 <= n -> stochastic n (ch_p c) -> names_ok n (ch_states c) -> from_graph (Some (to_graph c)) = Ok (as_object c).
Proof.
  intros Hn (HW & Hpos & HS) HN. destruct (to_graph_ok n c Hn HW Hpos HN) as (H1 & H2 & H3).
  destruct (from_graph_ok n _ _ _ H1 Hn H2 HN H3) as (P & E & HPw & HD). rewrite E. unfold as_object. do 3 f_equal. apply (mat_ext n n); [exact HPw|exact HW|]. intros i j Hi Hj.
  destruct (HD i Hi) as [K _]. cbv zeta in K. rewrite HS in K by exact Hi. specialize (K eq_refl j Hj). rewrite <- K. ring.
Qed.
(** which graphs are accepted *)
Lemma from_graph_iff n g : digraph n g ->
  ((exists o, from_graph (Some g) = Ok o) <->
   2 <= n /\ (forall x, In x (g_nodes g) -> exists s, fst x = PStr s /\ nonblank s = true) /\
   (forall i j a, In (i, j, a) (g_edges g) -> exists v x, fst a = Some v /\ number_value v x /\ (x = PInf \/ exists q, x = Fin q /\ (0 < q)%Qc))).
Proof.
  intros (HM & Hlen & HN & HE & HB). unfold from_graph, v_graph, simple_edges. rewrite HM, Hlen. split.
  - intros (o & H). destruct (Nat.leb 2 n) eqn:E1; [|discriminate]. cbv iota in H. destruct (forallb (fun x : pyval * option pyval => is_string (fst x)) (g_nodes g)) eqn:E2; [|discriminate]. cbv iota zeta in H.
    match type of H with context [forallb ?f (g_edges g)] => destruct (forallb f (g_edges g)) eqn:E3; [|discriminate] end. clear H.
    split; [apply Nat.leb_le; exact E1|]. split.
    + intros x Hx. rewrite forallb_forall in E2. specialize (E2 x Hx). destruct (fst x); try discriminate. eexists. split; [reflexivity|exact E2].
    + intros i j a Hx. rewrite forallb_forall in E3. specialize (E3 _ Hx). unfold edge_weight in E3. cbn [snd] in E3. apply andb_true_iff in E3. destruct E3 as [E3 E4].
      destruct (fst a) as [v|]; [|vm_compute in E4; discriminate]. exists v, (as_float v). split; [reflexivity|]. split.
      * destruct v; try discriminate; [right; eexists; split; reflexivity|left; reflexivity].
      * destruct (as_float v) as [q| | |]; cbn in E4; try discriminate; [right; exists q; split; [reflexivity|apply Qcltb_lt; exact E4]|left; reflexivity].
  - intros (Hn & HS & HWt). replace (Nat.leb 2 n) with true by (symmetry; apply Nat.leb_le; exact Hn).
    replace (forallb (fun x : pyval * option pyval => is_string (fst x)) (g_nodes g)) with true.
    2:{ symmetry. apply forallb_forall. intros x Hx. destruct (HS x Hx) as (s & -> & Hs). exact Hs. }
    match goal with |- context [forallb ?f (g_edges g)] => replace (forallb f (g_edges g)) with true end.
    2:{ symmetry. apply forallb_forall. intros [[i j] a] Hx. destruct (HWt i j a Hx) as (v & x & Ev & Nv & Pv). unfold edge_weight. cbn [snd]. rewrite Ev. apply number_value_float in Nv. destruct Nv as [-> ->]. destruct Pv as [->|(q & -> & Hq)]; [reflexivity|]. apply Qcltb_lt. exact Hq. }
    cbn [bind fst snd]. set (l := map (fun x : pyval * option pyval => as_str (fst x)) (g_nodes g)).
    assert (Hnm : nodes_named g l). { unfold nodes_named, l. rewrite map_map. apply map_ext_in. intros x Hx. destruct (HS x Hx) as (s & -> & _). reflexivity. }
    assert (HD : NoDup l). { rewrite Hnm in HN. clear - HN. induction l as [|x l IH]; [constructor|]. cbn in HN. inversion HN as [|? ? K1 K2]; subst. constructor; [intros C; apply K1; apply in_map; exact C|apply IH; exact K2]. }
    assert (HL : length l = n) by (unfold l; rewrite map_length; exact Hlen).
    destruct (fill_graph_ok g l n HL HD (fun i Hi => nodes_label g l i Hnm ltac:(lia)) (map (fun e : gedge => (fst e, as_float (edge_weight e))) (g_edges g))) with (p := nzeros n n) as (q & Eq & _).
    + rewrite map_map. exact HE.
    + intros i j w I. apply in_map_iff in I. destruct I as ([ij a] & E & I). cbn in E. inversion E; subst. apply HB with a. exact I.
    + apply nzeros_shape.
    + rewrite HL. match goal with |- exists o, bind ?X _ = _ => replace X with (Ok q) by (symmetry; exact Eq) end. eexists. reflexivity.
Qed.
