(** L_Graph2: the graph of a hidden Markov model. *)
From Verif Require Import S_Graph L_Valid1 L_Valid2 L_Io1 L_Io4 L_Graph.
Open Scope nat_scope.
Open Scope res_scope.

Definition hmm_edge (n k : nat) (e : nat * nat * num * string) : Prop :=
  let '(a, b, w, t) := e in a < n /\ ((t = "P"%string /\ b < n) \/ (t = "E"%string /\ n <= b < n + k)).
Lemma fill_hmm_graph_ok g l s n k : length l = n -> length s = k -> NoDup l -> NoDup s ->
  (forall i, i < n -> label g i = nth i l EmptyString) -> (forall j, j < k -> label g (n + j) = nth j s EmptyString) ->
  forall es, NoDup (map (fun e => fst (fst e)) es) -> (forall e, In e es -> hmm_edge n k e) -> forall p e, shape n n p -> shape n k e ->
  exists q f, fill_hmm_graph g l s es p e = Ok (q, f) /\ shape n n q /\ shape n k f /\
    (forall i j w, In (i, j, w, "P"%string) es -> nget q i j = w) /\
    (forall i j, i < n -> j < n -> (forall w, ~ In (i, j, w, "P"%string) es) -> nget q i j = nget p i j) /\
    (forall i j w, j < k -> In (i, n + j, w, "E"%string) es -> nget f i j = w) /\
    (forall i j, i < n -> j < k -> (forall w, ~ In (i, n + j, w, "E"%string) es) -> nget f i j = nget e i j).
Proof.
  intros HL HK HN HM Hlab Hsym. induction es as [|[[[a b] w] t] es IH]; intros HD HR p e Hp He.
  - exists p, e. split; [reflexivity|]. split; [exact Hp|]. split; [exact He|]. split; [intros i j w []|]. split; [reflexivity|]. split; [intros i j w _ []|]. reflexivity.
  - pose proof (HR _ (or_introl eq_refl)) as (Ha & Hb). inversion HD as [|? ? Hx HD']; subst. cbn [fst snd] in Hx.
    assert (Hnew : forall w' t', ~ In (a, b, w', t') es). { intros w' t' C. apply Hx. apply (in_map (fun e => fst (fst e))) in C. exact C. }
    destruct Hb as [(-> & Hb)|(-> & Hb)].
    + destruct (IH HD' (fun x K => HR x (or_intror K)) (set2 a b w p) e) as (q & f & E & Sq & Sf & G1 & G2 & G3 & G4); [apply set2_shape; assumption|exact He|].
      exists q, f. split; [|split; [exact Sq|split; [exact Sf|split; [|split; [|split]]]]].
      * cbn [fill_hmm_graph]. rewrite !Hlab by assumption. rewrite !pos_nth by assumption. cbn [bind String.eqb Ascii.eqb Bool.eqb]. exact E.
      * intros i j w' [K|K]; [|apply G1; exact K]. inversion K; subst. rewrite G2 by (auto). rewrite (set2_get (length l) (length l)) by assumption. rewrite !Nat.eqb_refl. reflexivity.
      * intros i j Hi Hj K. rewrite G2; [|assumption|assumption|intros w' C; apply (K w'); right; exact C]. rewrite (set2_get (length l) (length l)) by assumption.
        destruct (Nat.eqb_spec i a) as [->|]; [|reflexivity]. destruct (Nat.eqb_spec j b) as [->|]; [|reflexivity]. exfalso. apply (K w). left. reflexivity.
      * intros i j w' Hj [K|K]; [inversion K|]. apply G3; assumption.
      * intros i j Hi Hj K. apply G4; auto. intros w' C. apply (K w'). right. exact C.
    + assert (Eb : exists b', b = length l + b' /\ b' < length s) by (exists (b - length l); lia). destruct Eb as (b' & -> & Hb').
      destruct (IH HD' (fun x K => HR x (or_intror K)) p (set2 a b' w e)) as (q & f & E & Sq & Sf & G1 & G2 & G3 & G4); [exact Hp|apply set2_shape; assumption|].
      exists q, f. split; [|split; [exact Sq|split; [exact Sf|split; [|split; [|split]]]]].
      * cbn [fill_hmm_graph]. rewrite Hlab, Hsym by assumption. rewrite !pos_nth by assumption. cbn [bind String.eqb Ascii.eqb Bool.eqb]. exact E.
      * intros i j w' [K|K]; [inversion K|]. apply G1; exact K.
      * intros i j Hi Hj K. apply G2; auto. intros w' C. apply (K w'). right. exact C.
      * intros i j w' Hj [K|K]; [|apply G3; assumption]. inversion K as [[K1 K2 K3]]. subst i w'. assert (j = b') by lia. subst j. rewrite G4 by (auto). rewrite (set2_get (length l) (length s)) by assumption. rewrite !Nat.eqb_refl. reflexivity.
      * intros i j Hi Hj K. rewrite G4; [|assumption|assumption|intros w' C; apply (K w'); right; exact C]. rewrite (set2_get (length l) (length s)) by assumption.
        destruct (Nat.eqb_spec i a) as [->|]; [|reflexivity]. destruct (Nat.eqb_spec j b') as [->|]; [|reflexivity]. exfalso. apply (K w). left. reflexivity.
Qed.

Definition layered (l s : list string) : list (pyval * option pyval) := map (fun x => (PStr x, Some (PInt 1))) l ++ map (fun x => (PStr x, Some (PInt 0))) s.
Lemma layer_filter (l s : list string) k : k = 0%Z \/ k = 1%Z ->
  map (fun x => as_str (fst x)) (filter (fun x => Z.eqb (as_int (node_layer x)) k) (layered l s)) = if Z.eqb k 1 then l else s.
Proof.
  intros Hk. unfold layered. rewrite filter_app, map_app.
  assert (H1 : forall (z : Z) (m : list string), map (fun x : pyval * option pyval => as_str (fst x)) (filter (fun x : pyval * option pyval => Z.eqb (as_int (node_layer x)) k) (map (fun x => (PStr x, Some (PInt z))) m)) = if Z.eqb z k then m else []).
  { intros z m. induction m as [|x m IH]; [destruct (Z.eqb z k); reflexivity|]. cbn [map filter node_layer snd as_int]. destruct (Z.eqb z k); cbn [map fst as_str]; rewrite IH; reflexivity. }
  rewrite !H1. destruct Hk as [->| ->]; cbn; [reflexivity|apply app_nil_r].
Qed.
Lemma layered_label l s es m i : label (mkg m (layered l s) es) i = nth i (l ++ s) EmptyString.
Proof.
  unfold label. cbn [g_nodes]. unfold layered.
  assert (E : map (fun x => as_str (fst x)) (map (fun x => (PStr x, Some (PInt 1))) l ++ map (fun x => (PStr x, Some (PInt 0))) s) = l ++ s).
  { rewrite map_app, !map_map. cbn. rewrite !map_id. reflexivity. }
  rewrite <- E. symmetry. exact (map_nth (fun x : pyval * option pyval => as_str (fst x)) _ (PNone, None) i).
Qed.
Lemma hmm_to_graph_edges o i j a : In (i, j, a) (g_edges (hmm_to_graph o)) <-> i < length (ho_states o) /\
  ((j < length (ho_states o) /\ (0 < mget (ho_p o) i j)%Qc /\ a = (Some (PFloat (Fin (mget (ho_p o) i j))), Some (PStr "P"))) \/
   (exists b, j = length (ho_states o) + b /\ b < length (ho_symbols o) /\ (0 < mget (ho_e o) i b)%Qc /\ a = (Some (PFloat (Fin (mget (ho_e o) i b))), Some (PStr "E")))).
Proof.
  unfold hmm_to_graph. cbn [g_edges]. rewrite in_flat_map. split.
  - intros (i' & Hi & H). apply in_seq in Hi. apply in_app_iff in H. destruct H as [H|H]; apply in_flat_map in H; destruct H as (j' & Hj & H); apply in_seq in Hj.
    + destruct (Qcltb 0 (mget (ho_p o) i' j')) eqn:E; [|destruct H]. destruct H as [H|[]]. inversion H; subst. apply Qcltb_lt in E. split; [lia|]. left. split; [lia|]. auto.
    + destruct (Qcltb 0 (mget (ho_e o) i' j')) eqn:E; [|destruct H]. destruct H as [H|[]]. inversion H; subst. apply Qcltb_lt in E. split; [lia|]. right. exists j'. split; [reflexivity|]. split; [lia|]. auto.
  - intros (Hi & [(Hj & HP & ->)|(b & -> & Hb & HP & ->)]); exists i; (split; [apply in_seq; lia|]); apply in_app_iff; [left|right]; apply in_flat_map.
    + exists j. split; [apply in_seq; lia|]. apply Qcltb_lt in HP. rewrite HP. left. reflexivity.
    + exists b. split; [apply in_seq; lia|]. apply Qcltb_lt in HP. rewrite HP. left. reflexivity.
Qed.
Lemma hmm_to_graph_nodup o : NoDup (map fst (g_edges (hmm_to_graph o))).
Proof.
  unfold hmm_to_graph. cbn [g_edges]. rewrite map_flat_map. apply nodup_flat_map; [apply seq_NoDup| |].
  - intros i _. rewrite map_app. apply nodup_app.
    + apply (flat_map_fst_nodup (fun i j => Qcltb 0 (mget (ho_p o) i j)) (fun i j => (Some (PFloat (Fin (mget (ho_p o) i j))), Some (PStr "P")))). apply seq_NoDup.
    + rewrite map_flat_map. apply nodup_flat_map; [apply seq_NoDup| |].
      * intros j _. destruct (Qcltb 0 (mget (ho_e o) i j)); cbn; repeat constructor. intros [].
      * intros x y z _ _ Hx Hy. destruct (Qcltb 0 (mget (ho_e o) i x)), (Qcltb 0 (mget (ho_e o) i y)); cbn in Hx, Hy; try contradiction. destruct Hx as [Hx|[]], Hy as [Hy|[]]. subst. inversion Hy. lia.
    + intros z Hx Hy. rewrite map_flat_map in Hx, Hy. apply in_flat_map in Hx. destruct Hx as (x & Ix & Hx). apply in_flat_map in Hy. destruct Hy as (y & Iy & Hy). apply in_seq in Ix. apply in_seq in Iy.
      destruct (Qcltb 0 (mget (ho_p o) i x)), (Qcltb 0 (mget (ho_e o) i y)); cbn in Hx, Hy; try contradiction. destruct Hx as [Hx|[]], Hy as [Hy|[]]. subst. inversion Hy. lia.
  - intros x y z _ _ Hx Hy.
    assert (H : forall i z, In z (map fst (flat_map (fun j => if Qcltb 0 (mget (ho_p o) i j) then [(i, j, (Some (PFloat (Fin (mget (ho_p o) i j))), Some (PStr "P")))] else []) (seq 0 (length (ho_states o))) ++
       flat_map (fun j => if Qcltb 0 (mget (ho_e o) i j) then [(i, length (ho_states o) + j, (Some (PFloat (Fin (mget (ho_e o) i j))), Some (PStr "E")))] else []) (seq 0 (length (ho_symbols o))))) -> fst z = i).
    { clear. intros i z H. apply in_map_iff in H. destruct H as (e & <- & H). apply in_app_iff in H. destruct H as [H|H]; apply in_flat_map in H; destruct H as (j & _ & H); [destruct (Qcltb 0 (mget (ho_p o) i j))|destruct (Qcltb 0 (mget (ho_e o) i j))]; try contradiction; destruct H as [<-|[]]; reflexivity. }
    apply H in Hx. apply H in Hy. congruence.
Qed.
Lemma hmm_from_graph_ok n k o : 2 <= n -> 2 <= k -> wf n n (ho_p o) -> (forall i j, i < n -> j < n -> (0 <= mget (ho_p o) i j)%Qc) ->
  wf n k (ho_e o) -> (forall i j, i < n -> j < k -> (0 <= mget (ho_e o) i j)%Qc) -> names_ok n (ho_states o) -> names_ok k (ho_symbols o) ->
  exists P E, hmm_from_graph (Some (hmm_to_graph o)) = Ok (mkrhobj (map (map Fin) P) (map (map Fin) E) (ho_states o) (ho_symbols o)) /\
    rows_divided n n (ho_p o) P /\ rows_divided n k (ho_e o) E.
Proof.
  intros Hn Hk HW HP HE HQ (HL & HN & HB) (HK & HM & HC).
  destruct (normalise_ok n n (ho_p o) ltac:(lia) HW HP) as (P & EP & DP). destruct (normalise_ok n k (ho_e o) ltac:(lia) HE HQ) as (E & EE & DE). exists P, E. split; [|split; assumption].
  assert (Hg : g_nodes (hmm_to_graph o) = layered (ho_states o) (ho_symbols o)) by reflexivity.
  unfold hmm_from_graph, v_hmm_graph. unfold simple_edges. replace (g_multi (hmm_to_graph o)) with false by reflexivity. rewrite Hg. cbv zeta.
  rewrite !layer_filter by auto. cbn [Z.eqb Pos.eqb].
  replace (forallb (fun x : pyval * option pyval => is_string (fst x)) (layered (ho_states o) (ho_symbols o))) with true.
  2:{ symmetry. apply forallb_forall. intros x Hx. unfold layered in Hx. apply in_app_iff in Hx. destruct Hx as [Hx|Hx]; apply in_map_iff in Hx; destruct Hx as (s & <- & Hs); [apply HB|apply HC]; exact Hs. }
  match goal with |- context [forallb ?f (layered (ho_states o) (ho_symbols o))] => replace (forallb f (layered (ho_states o) (ho_symbols o))) with true end.
  2:{ symmetry. apply forallb_forall. intros x Hx. unfold layered in Hx. apply in_app_iff in Hx. destruct Hx as [Hx|Hx]; apply in_map_iff in Hx; destruct Hx as (s & <- & Hs); reflexivity. }
  rewrite HL, HK. replace (Nat.leb 2 n) with true by (symmetry; apply Nat.leb_le; exact Hn). replace (Nat.leb 2 k) with true by (symmetry; apply Nat.leb_le; exact Hk). cbn [andb].
  set (es := g_edges (hmm_to_graph o)) in *.
  match goal with |- context [forallb ?f es] => replace (forallb f es) with true end.
  2:{ symmetry. apply forallb_forall. intros [[i j] a] Hx. apply hmm_to_graph_edges in Hx. destruct Hx as (_ & [(_ & Hp & ->)|(b & _ & _ & Hp & ->)]); cbn; apply Qcltb_lt; exact Hp. }
  match goal with |- context [forallb ?f es] => replace (forallb f es) with true end.
  2:{ symmetry. apply forallb_forall. intros [[i j] a] Hx. apply hmm_to_graph_edges in Hx. destruct Hx as (_ & [(_ & Hp & ->)|(b & _ & _ & Hp & ->)]); reflexivity. }
  cbn [bind fst snd]. rewrite HL, HK.
  destruct (fill_hmm_graph_ok (hmm_to_graph o) (ho_states o) (ho_symbols o) n k HL HK HN HM) with
    (es := map (fun e : gedge => (fst e, as_float (edge_weight e), as_str (edge_type e))) es) (p := nzeros n n) (e := nzeros n k) as (q & f & Eq & Sq & Sf & G1 & G2 & G3 & G4).
  - intros i Hi. change (hmm_to_graph o) with (mkg false (layered (ho_states o) (ho_symbols o)) es). rewrite layered_label. apply app_nth1. lia.
  - intros j Hj. change (hmm_to_graph o) with (mkg false (layered (ho_states o) (ho_symbols o)) es). rewrite layered_label. rewrite app_nth2 by lia. f_equal. lia.
  - rewrite map_map. cbn [fst]. apply hmm_to_graph_nodup.
  - intros e I. apply in_map_iff in I. destruct I as ([[i j] a] & <- & I). apply hmm_to_graph_edges in I. rewrite HL, HK in I. destruct I as (Hi & [(Hj & _ & ->)|(b & -> & Hb & _ & ->)]); cbn; (split; [exact Hi|]); [left|right]; (split; [reflexivity|lia]).
  - apply nzeros_shape.
  - apply nzeros_shape.
  - match goal with |- bind ?X _ = _ => replace X with (Ok (q, f)) by (symmetry; exact Eq) end. cbn [bind fst snd].
    replace q with (map (map Fin) (ho_p o)); [replace f with (map (map Fin) (ho_e o)); [rewrite EP, EE; reflexivity|]|].
    + apply (nmat_ext n k); [apply fin_shape; exact HE|exact Sf|]. intros i j Hi Hj. rewrite (fin_get n k) by assumption. destruct (Qclt_le_dec 0 (mget (ho_e o) i j)) as [K|K].
      * symmetry. apply G3; [exact Hj|]. apply in_map_iff. exists (i, n + j, (Some (PFloat (Fin (mget (ho_e o) i j))), Some (PStr "E"))). split; [reflexivity|]. apply hmm_to_graph_edges. rewrite HL, HK. split; [exact Hi|]. right. exists j. auto.
      * rewrite G4; [rewrite nzeros_get by assumption; f_equal; apply Qcle_antisym; [exact K|apply HQ; assumption]|assumption|assumption|].
        intros w C. apply in_map_iff in C. destruct C as ([[i' j'] a] & Ec & I). apply hmm_to_graph_edges in I. rewrite HL, HK in I. destruct I as (_ & [(_ & _ & ->)|(b & -> & _ & Hp & ->)]); cbn in Ec; inversion Ec; subst.
        assert (b = j) by lia. subst b. apply Qclt_not_le in Hp. contradiction.
    + apply (nmat_ext n n); [apply fin_shape; exact HW|exact Sq|]. intros i j Hi Hj. rewrite (fin_get n n) by assumption. destruct (Qclt_le_dec 0 (mget (ho_p o) i j)) as [K|K].
      * symmetry. apply G1. apply in_map_iff. exists (i, j, (Some (PFloat (Fin (mget (ho_p o) i j))), Some (PStr "P"))). split; [reflexivity|]. apply hmm_to_graph_edges. rewrite HL, HK. split; [exact Hi|]. left. auto.
      * rewrite G2; [rewrite nzeros_get by assumption; f_equal; apply Qcle_antisym; [exact K|apply HP; assumption]|assumption|assumption|].
        intros w C. apply in_map_iff in C. destruct C as ([[i' j'] a] & Ec & I). apply hmm_to_graph_edges in I. rewrite HL, HK in I. destruct I as (_ & [(_ & Hp & ->)|(b & -> & _ & Hp & ->)]); cbn in Ec; inversion Ec; subst.
        apply Qclt_not_le in Hp. contradiction.
Qed.
Lemma divided_same n m W P : row_stochastic n m W -> rows_divided n m W P -> P = W.
Proof.
  intros (HW & _ & HS) (HP & HD). apply (mat_ext n m); [exact HP|exact HW|]. intros i j Hi Hj. destruct (HD i Hi) as [K _]. cbv zeta in K. rewrite HS in K by exact Hi. specialize (K eq_refl j Hj). rewrite <- K. ring.
Qed.
Lemma hmm_graph_round_trip n k o : 2 <= n -> 2 <= k -> row_stochastic n n (ho_p o) -> row_stochastic n k (ho_e o) -> names_ok n (ho_states o) -> names_ok k (ho_symbols o) ->
  (forall s, In s (ho_states o) -> ~ In s (ho_symbols o)) -> hmm_from_graph (Some (hmm_to_graph o)) = Ok (as_hmm_object o).
Proof.
  intros Hn Hk HP HE HN HM _. destruct (hmm_from_graph_ok n k o) as (P & E & H & DP & DE); try assumption; [apply HP|apply HP|apply HE|apply HE|].
  rewrite H. apply divided_same in DP; [|exact HP]. apply divided_same in DE; [|exact HE]. subst. reflexivity.
Qed.
