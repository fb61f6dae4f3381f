(** L_Io2: the accept set of from_dictionary. *)
From Verif Require Import S_Io L_Gen1 L_Valid2 L_Io1.
From Coq Require Import Sorted.
Open Scope nat_scope.
Open Scope res_scope.

Lemma sorted_unique {A} (R : A -> A -> Prop) (Has : forall x y, R x y -> R y x -> False) l : forall l',
  StronglySorted R l -> StronglySorted R l' -> (forall x, In x l <-> In x l') -> l = l'.
Proof.
  induction l as [|x l IH]; intros [|x' l'] H1 H2 HE.
  - reflexivity.
  - exfalso. apply (HE x'). left. reflexivity.
  - exfalso. apply (HE x). left. reflexivity.
  - inversion H1 as [|? ? S1 F1]; inversion H2 as [|? ? S2 F2]; subst. rewrite Forall_forall in F1, F2.
    assert (Hir : forall y, ~ R y y) by (intros y Hy; exact (Has y y Hy Hy)).
    assert (x = x').
    { pose proof (proj1 (HE x) (or_introl eq_refl)) as [E|K1]; [auto|]. pose proof (proj2 (HE x') (or_introl eq_refl)) as [E|K2]; [auto|]. exfalso. exact (Has _ _ (F1 _ K2) (F2 _ K1)). }
    subst x'. f_equal. apply IH; try assumption. intros y. split; intros Hy.
    + destruct (proj1 (HE y) (or_intror Hy)) as [<-|K]; [exfalso; exact (Hir _ (F1 _ Hy))|exact K].
    + destruct (proj2 (HE y) (or_intror Hy)) as [<-|K]; [exfalso; exact (Hir _ (F2 _ Hy))|exact K].
Qed.

(** the order of the diagonal keys *)
Definition diag_key (s : string) : pyval := PTuple [PStr s; PStr s].
Definition before (entries : list (pyval * pyval)) (s t : string) : Prop := exists a b va vb, a < b /\
    nth_error entries a = Some (diag_key s, va) /\ nth_error entries b = Some (diag_key t, vb).
Lemma before_asym entries : is_pydict entries -> forall s t, before entries s t -> before entries t s -> False.
Proof.
  intros HN s t (a & b & va & vb & Hab & Ea & Eb) (a' & b' & va' & vb' & Hab' & Ea' & Eb').
  assert (HU : forall x y k v w, nth_error entries x = Some (k, v) -> nth_error entries y = Some (k, w) -> x = y).
  { intros x y k v w E1 E2. unfold is_pydict in HN. apply (proj1 (NoDup_nth_error _) HN); [apply nth_error_Some; rewrite nth_error_map, E1; discriminate|]. rewrite !nth_error_map, E1, E2. reflexivity. }
  assert (a = b') by (eapply HU; eassumption). assert (b = a') by (eapply HU; eassumption). lia.
Qed.
Lemma before_cons e entries s t : before entries s t -> before (e :: entries) s t.
Proof. intros (a & b & va & vb & H & E1 & E2). exists (S a), (S b), va, vb. repeat split; auto. lia. Qed.

Definition two_keys (entries : list (pyval * pyval)) : Prop := forall k v, In (k, v) entries -> exists a b, k = PTuple [PStr a; PStr b].
Definition to_dict (entries : list (pyval * pyval)) : dict := map (fun e => (as_key (fst e), as_float (snd e))) entries.
Lemma diagonal_in entries s : two_keys entries -> (In s (diagonal (to_dict entries)) <-> In (diag_key s) (map fst entries)).
Proof.
  intros H2. unfold diagonal, to_dict. rewrite flat_map_map. rewrite in_flat_map, in_map_iff. split.
  - intros ([k v] & Hx & Hs). destruct (H2 k v Hx) as (a & b & ->). cbn in Hs. destruct (String.eqb_spec a b) as [->|]; [|contradiction]. destruct Hs as [<-|[]]. exists (diag_key b, v). auto.
  - intros ([k v] & E & Hx). cbn in E. subst k. exists (diag_key s, v). split; [exact Hx|]. cbn. rewrite String.eqb_refl. left. reflexivity.
Qed.
Lemma diagonal_sorted entries : two_keys entries -> StronglySorted (before entries) (diagonal (to_dict entries)).
Proof.
  induction entries as [|[k v] entries IH]; intros H2; [constructor|].
  assert (H2' : two_keys entries) by (intros k' v' Hk; apply (H2 k' v'); right; exact Hk).
  assert (HS : StronglySorted (before ((k, v) :: entries)) (diagonal (to_dict entries))).
  { specialize (IH H2'). clear - IH. induction IH as [|x l S1 IH F]; constructor; auto. eapply Forall_impl; [|exact F]. intros y Hy. apply before_cons. exact Hy. }
  destruct (H2 k v (or_introl eq_refl)) as (a & b & ->). unfold to_dict, diagonal. cbn [map flat_map as_key as_str fst snd]. fold (to_dict entries). fold (diagonal (to_dict entries)).
  destruct (String.eqb_spec a b) as [->|]; [|exact HS]. cbn [app]. constructor; [exact HS|]. apply Forall_forall. intros t Ht. apply diagonal_in in Ht; [|exact H2'].
  apply in_map_iff in Ht. destruct Ht as ([k' v'] & E & Ht). cbn in E. subst k'. apply In_nth_error in Ht. destruct Ht as [p Hp]. exists 0, (S p), v, v'. repeat split; auto. lia.
Qed.
Lemma sorted_nth entries l n : length l = n -> (StronglySorted (before entries) l <-> diagonal_order entries n l).
Proof.
  intros HL. split.
  - intros HS i j Hij Hj. subst n. revert i j Hij Hj. induction HS as [|x l S1 IH F]; intros i j Hij Hj; [cbn in Hj; lia|]. destruct j as [|j]; [lia|]. cbn in Hj. destruct i as [|i].
    + cbn [nth]. rewrite Forall_forall in F. apply F. apply nth_In. lia.
    + cbn [nth]. apply IH; lia.
  - intros H. subst n. induction l as [|x l IH]; [constructor|]. constructor.
    + apply IH. intros i j Hij Hj. exact (H (S i) (S j) ltac:(lia) ltac:(cbn; lia)).
    + apply Forall_forall. intros y Hy. apply (In_nth _ _ EmptyString) in Hy. destruct Hy as (j & Hj & <-). exact (H 0 (S j) ltac:(lia) ltac:(cbn; lia)).
Qed.

Lemma v_dict_keys_inv len v entries : v_dict_keys len v = Ok entries -> v = Some entries /\ entries <> [] /\
  forall k x, In (k, x) entries -> exists l, k = PTuple l /\ length l = len /\ forallb is_string l = true.
Proof.
  unfold v_dict_keys. destruct v as [es|]; [|discriminate]. destruct (negb _) eqn:E1; [|discriminate]. cbv iota. destruct (forallb _ es) eqn:E2; [|discriminate]. cbv iota. intros H. injection H as <-.
  split; [reflexivity|]. split; [intros ->; discriminate|]. intros k x Hx. rewrite forallb_forall in E2. specialize (E2 _ Hx). cbn in E2. destruct k; try discriminate. apply andb_true_iff in E2. destruct E2 as [E2 E3].
  apply Nat.eqb_eq in E2. eauto.
Qed.
Lemma is_string_inv v : is_string v = true -> exists s, v = PStr s /\ nonblank s = true.
Proof. destruct v; cbn; try discriminate. eauto. Qed.
Lemma v_dict_values_inv entries d : v_dict_values entries = Ok d -> d = to_dict entries /\
  forall k v, In (k, v) entries -> is_number v = true /\ prob01 (as_float v) = true.
Proof.
  unfold v_dict_values. destruct (forallb _ entries) eqn:E1; [|discriminate]. cbv iota. destruct (forallb (fun e => prob01 _) entries) eqn:E2; [|discriminate]. cbv iota. intros H. injection H as <-.
  split; [reflexivity|]. rewrite forallb_forall in E1, E2. intros k v Hx. specialize (E1 _ Hx). specialize (E2 _ Hx). auto.
Qed.
Lemma is_number_value v : is_number v = true -> number_value v (as_float v).
Proof. unfold number_value. destruct v; cbn; try discriminate; intros _; eauto. Qed.
Lemma number_value_inv v x : number_value v x -> is_number v = true /\ as_float v = x.
Proof. unfold number_value. intros [->|(z & -> & ->)]; cbn; auto. Qed.

(** chain_of_dict on a complete table *)
Lemma chain_of_dict_inv d o : NoDup (map fst d) -> pair_keys (diagonal d) d -> NoDup (diagonal d) ->
  (forall a b, In a (diagonal d) -> In b (diagonal d) -> In [a; b] (map fst d)) -> (forall k v, In (k, v) d -> exists x, v = Fin x) ->
  let n := length (diagonal d) in
  (chain_of_dict d = Ok o <-> 2 <= n /\ exists P, wf n n P /\ (forall i j, i < n -> j < n -> lookup d [nth i (diagonal d) EmptyString; nth j (diagonal d) EmptyString] = Some (Fin (mget P i j)))
     /\ nearly_stochastic n n P /\ o = mkrobj (map (map Fin) P) (diagonal d)).
Proof.
  intros HD HK HN HC HF n.
  set (l := diagonal d) in *. 
  pose (P := mk n n (fun i j => match lookup d [nth i l EmptyString; nth j l EmptyString] with Some v => fin v | None => 0q end)).
  assert (HWP : wf n n P) by apply wf_mk.
  assert (HL : forall i j, i < n -> j < n -> lookup d [nth i l EmptyString; nth j l EmptyString] = Some (Fin (mget P i j))).
  { intros i j Hi Hj. unfold P. rewrite mget_mk by assumption. specialize (HC (nth i l EmptyString) (nth j l EmptyString) (nth_In _ _ Hi) (nth_In _ _ Hj)). apply in_map_iff in HC. destruct HC as ([k v] & E & Hin). cbn in E. subst k.
    pose proof (proj2 (lookup_in d _ v HD) Hin) as EL. rewrite EL. destruct (HF _ _ Hin) as (x & ->). reflexivity. }
  assert (HFill : fill_mc l d (nzeros n n) = Ok (map (map Fin) P)).
  { destruct (fill_ok l d HN HK HD (nzeros n n) (nzeros_shape n n)) as (q & Eq & Sq & Gq). rewrite Eq. f_equal. apply (nmat_ext n n); [exact Sq|apply fin_shape; exact HWP|].
    intros i j Hi Hj. rewrite Gq by assumption. rewrite HL by assumption. rewrite (fin_get n n) by assumption. reflexivity. }
  unfold chain_of_dict. fold l. fold n. rewrite HFill. cbn [bind]. split.
  - intros H. destruct (Nat.leb_spec 2 n) as [H2|H2]; [|discriminate]. split; [exact H2|]. destruct (rows_sum_to_one _) eqn:ES; [|discriminate]. injection H as <-. exists P. split; [exact HWP|]. split; [exact HL|]. split; [apply (rows_sum_fin n n P HWP); exact ES|reflexivity].
  - intros (H2 & P' & HW' & HL' & HS' & ->). assert (P' = P).
    { apply (mat_ext n n); auto. intros i j Hi Hj. specialize (HL i j Hi Hj). specialize (HL' i j Hi Hj). congruence. }
    subst P'. replace (Nat.leb 2 n) with true by (symmetry; apply Nat.leb_le; exact H2). replace (rows_sum_to_one _) with true by (symmetry; apply (rows_sum_fin n n P HWP); exact HS'). reflexivity.
Qed.
Lemma nodup_flat_pick {A} (f : A -> list string) d : NoDup d -> (forall x, In x d -> length (f x) <= 1) -> (forall x y s, In x d -> In y d -> In s (f x) -> In s (f y) -> x = y) -> NoDup (flat_map f d).
Proof.
  intros H1 H2 H3. apply nodup_flat_map; auto. intros x Hx. specialize (H2 x Hx). destruct (f x) as [|a [|b r]]; [constructor|constructor; [intros []|constructor]|cbn in H2; lia].
Qed.

Lemma from_dictionary_iff entries o : is_pydict entries ->
  (from_dictionary (Some entries) = Ok o <->
   exists n l P, 2 <= n /\ names_ok n l /\ table_of entries n l P /\ diagonal_order entries n l /\ wf n n P
     /\ probabilities n n P /\ nearly_stochastic n n P /\ o = mkrobj (map (map Fin) P) l).
Proof.
  intros HPD.
  assert (Common : two_keys entries -> NoDup (map fst (to_dict entries)) /\ NoDup (diagonal (to_dict entries))).
  { intros H2. assert (HND : NoDup (map fst (to_dict entries))).
    { unfold to_dict. rewrite map_map. cbn [fst]. unfold is_pydict in HPD. rewrite <- (map_map fst as_key). apply nodup_map_inj; [exact HPD|].
      intros x y Hx Hy E. apply in_map_iff in Hx, Hy. destruct Hx as ([kx vx] & <- & Hx), Hy as ([ky vy] & <- & Hy). destruct (H2 _ _ Hx) as (a & b & ->), (H2 _ _ Hy) as (a' & b' & ->). cbn in E. injection E as -> ->. reflexivity. }
    split; [exact HND|]. unfold diagonal. apply nodup_flat_pick.
    - apply (NoDup_map_inv fst). exact HND.
    - intros [k v] _. destruct k as [|a [|b [|c k]]]; cbn; auto. destruct (String.eqb a b); cbn; auto.
    - intros [k v] [k' v'] s Hx Hy Hs Hs'. cbn [fst] in *. destruct k as [|a [|b [|? ?]]]; try contradiction. destruct k' as [|a' [|b' [|? ?]]]; try contradiction.
      destruct (String.eqb_spec a b) as [->|]; [|contradiction]. destruct (String.eqb_spec a' b') as [->|]; [|contradiction]. destruct Hs as [<-|[]]. destruct Hs' as [->|[]].
      f_equal. pose proof (proj2 (lookup_in _ _ _ HND) Hx) as L1. pose proof (proj2 (lookup_in _ _ _ HND) Hy) as L2. congruence. }
  split.
  - intros H. unfold from_dictionary in H. destruct (v_dictionary_mc (Some entries)) as [d|] eqn:EV; [|discriminate]. cbn [bind] in H.
    unfold v_dictionary_mc in EV. destruct (v_dict_keys 2 (Some entries)) as [es|] eqn:EK; [|discriminate]. cbn [bind] in EV. apply v_dict_keys_inv in EK. destruct EK as (E & Hne & HK). injection E as <-.
    destruct (forallb _ _) eqn:EC in EV; [|discriminate]. cbv iota in EV. apply v_dict_values_inv in EV. destruct EV as (-> & HV).
    assert (HT : forall k x, In (k, x) entries -> exists a b, k = PTuple [PStr a; PStr b] /\ nonblank a = true /\ nonblank b = true).
    { intros k x Hx. destruct (HK k x Hx) as (l & -> & HL & HS). destruct l as [|u [|w [|? ?]]]; try discriminate HL. cbn in HS. rewrite !andb_true_iff in HS. destruct HS as (S1 & S2 & _).
      apply is_string_inv in S1, S2. destruct S1 as (a & -> & Ba), S2 as (b & -> & Bb). eauto 6. }
    assert (H2 : two_keys entries) by (intros k x Hx; destruct (HT k x Hx) as (a & b & -> & _); eauto).
    destruct (Common H2) as [HND HNd].
    assert (HLab : forall k x a b, In (k, x) entries -> k = PTuple [PStr a; PStr b] -> In a (flat_map (fun k : key => [nth_s 0 k; nth_s 1 k]) (map (fun e : pyval * pyval => as_key (fst e)) entries)) /\ In b (flat_map (fun k : key => [nth_s 0 k; nth_s 1 k]) (map (fun e : pyval * pyval => as_key (fst e)) entries))).
    { intros k x a b Hx ->. split; apply in_flat_map; exists [a; b]; (split; [apply in_map_iff; exists (PTuple [PStr a; PStr b], x); auto|cbn; auto]). }
    rewrite forallb_forall in EC.
    assert (HPair : forall a b, In a (flat_map (fun k : key => [nth_s 0 k; nth_s 1 k]) (map (fun e : pyval * pyval => as_key (fst e)) entries)) -> In b (flat_map (fun k : key => [nth_s 0 k; nth_s 1 k]) (map (fun e : pyval * pyval => as_key (fst e)) entries)) ->
       In (PTuple [PStr a; PStr b]) (map fst entries)).
    { intros a b Ha Hb. specialize (EC a Ha). rewrite forallb_forall in EC. specialize (EC b Hb). apply in_keys_iff in EC. apply in_map_iff in EC. destruct EC as ([k x] & E & Hx). cbn in E. destruct (HT k x Hx) as (a' & b' & -> & _). cbn in E. injection E as -> ->.
      apply in_map_iff. exists (PTuple [PStr a; PStr b], x). auto. }
    assert (HDg : forall a, In a (flat_map (fun k : key => [nth_s 0 k; nth_s 1 k]) (map (fun e : pyval * pyval => as_key (fst e)) entries)) <-> In a (diagonal (to_dict entries))).
    { intros a. rewrite diagonal_in by exact H2. split; [intros Ha; apply HPair; exact Ha|]. intros Ha. apply in_map_iff in Ha. destruct Ha as ([k x] & E & Hx). cbn in E. subst k. eapply HLab; [exact Hx|reflexivity]. }
    apply chain_of_dict_inv in H; auto.
    + destruct H as (Hn & P & HW & HLk & HS & ->). exists (length (diagonal (to_dict entries))), (diagonal (to_dict entries)), P.
      assert (HIn : forall i j, i < length (diagonal (to_dict entries)) -> j < length (diagonal (to_dict entries)) -> exists v, In (PTuple [PStr (nth i (diagonal (to_dict entries)) EmptyString); PStr (nth j (diagonal (to_dict entries)) EmptyString)], v) entries /\ as_float v = Fin (mget P i j)).
      { intros i j Hi Hj. specialize (HLk i j Hi Hj). apply lookup_in in HLk; [|exact HND]. unfold to_dict in HLk at 3. apply in_map_iff in HLk. destruct HLk as ([k v] & E & Hx). cbn in E. injection E as E1 E2.
        exists v. destruct (H2 k v Hx) as (a & b & ->). cbn in E1. injection E1 as -> ->. auto. }
      split; [exact Hn|]. split; [split; [reflexivity|split; [exact HNd|]]|].
      { intros s Hs. apply HDg in Hs. apply in_flat_map in Hs. destruct Hs as (k & Hk & Hs). apply in_map_iff in Hk. destruct Hk as ([k' v] & <- & Hk). destruct (HT _ _ Hk) as (a & b & -> & Ba & Bb). cbn in Hs. destruct Hs as [<-|[<-|[]]]; assumption. }
      split; [split|].
      * intros k v Hx. destruct (HT k v Hx) as (a & b & -> & _). destruct (HLab _ _ a b Hx eq_refl) as [Ha Hb]. apply HDg, in_nth in Ha. apply HDg, in_nth in Hb. destruct Ha as (i & Hi & <-), Hb as (j & Hj & <-). exists i, j. repeat split; auto.
        destruct (HIn i j Hi Hj) as (v' & Hx' & Ev). assert (v = v').
        { apply In_nth_error in Hx, Hx'. destruct Hx as [x Hx], Hx' as [y Hy]. assert (x = y); [|subst; congruence]. apply (proj1 (NoDup_nth_error _) HPD); [apply nth_error_Some; rewrite nth_error_map, Hx; discriminate|]. rewrite !nth_error_map, Hx, Hy. reflexivity. }
        subst v'. rewrite <- Ev. apply is_number_value. apply (HV _ _ Hx).
      * intros i j Hi Hj. destruct (HIn i j Hi Hj) as (v & Hx & _). eauto.
      * split; [apply sorted_nth; [reflexivity|apply diagonal_sorted; exact H2]|]. split; [exact HW|]. split; [|auto].
        intros i j Hi Hj. destruct (HIn i j Hi Hj) as (v & Hx & Ev). destruct (HV _ _ Hx) as [_ Hp]. rewrite Ev in Hp. apply prob01_fin. exact Hp.
    + intros k v Hx. unfold to_dict in Hx at 1. apply in_map_iff in Hx. destruct Hx as ([k' v'] & E & Hx). injection E as <- <-. cbn [fst]. destruct (H2 _ _ Hx) as (a & b & ->). exists a, b. split; [reflexivity|]. destruct (HLab _ _ a b Hx eq_refl). split; apply HDg; assumption.
    + intros a b Ha Hb. apply HDg in Ha, Hb. specialize (HPair a b Ha Hb). apply in_map_iff in HPair. destruct HPair as ([k v] & E & Hx). cbn in E. subst k. apply in_map_iff. exists ([a; b], as_float v). split; [reflexivity|]. apply in_map_iff. eexists. split; [|exact Hx]. reflexivity.
    + intros k v Hx. apply in_map_iff in Hx. destruct Hx as ([k' v'] & E & Hx). injection E as <- <-. destruct (HV _ _ Hx) as [_ Hp]. cbn [snd]. destruct (as_float v'); try discriminate Hp. eauto.
  - intros (n & l & P & Hn & (HL & HN & HB) & (T1 & T2) & HO & HW & HP & HS & ->).
    assert (H2 : two_keys entries) by (intros k v Hx; destruct (T1 k v Hx) as (i & j & _ & _ & -> & _); eauto).
    destruct (Common H2) as [HND HNd].
    assert (HDg : diagonal (to_dict entries) = l).
    { apply (sorted_unique (before entries)).
      - apply before_asym. exact HPD.
      - apply diagonal_sorted. exact H2.
      - apply (sorted_nth entries l n HL). exact HO.
      - intros s. rewrite diagonal_in by exact H2. split.
        + intros Hs. apply in_map_iff in Hs. destruct Hs as ([k v] & E & Hx). cbn in E. subst k. destruct (T1 _ _ Hx) as (i & j & Hi & Hj & E & _). injection E as E _. subst s. apply nth_In. lia.
        + intros Hs. apply in_nth in Hs. destruct Hs as (i & Hi & <-). destruct (T2 i i) as (v & Hx); try lia. apply in_map_iff. eexists. split; [|exact Hx]. reflexivity. }
    unfold from_dictionary, v_dictionary_mc. rewrite v_dict_keys_ok.
    + cbn [bind]. 
      assert (HI : forall a, In a (flat_map (fun k : key => [nth_s 0 k; nth_s 1 k]) (map (fun e : pyval * pyval => as_key (fst e)) entries)) -> exists i, i < n /\ a = nth i l EmptyString).
      { intros a Ha. apply in_flat_map in Ha. destruct Ha as (k & Hk & Ha). apply in_map_iff in Hk. destruct Hk as ((k' & v) & <- & Hk). destruct (T1 _ _ Hk) as (i & j & Hi & Hj & -> & _). cbn in Ha. destruct Ha as [<-|[<-|[]]]; eauto. }
      replace (forallb _ _) with true.
      * unfold v_dict_values. replace (forallb (fun e : pyval * pyval => is_number (snd e)) entries) with true; [|symmetry; apply forallb_forall; intros [k v] Hx; destruct (T1 _ _ Hx) as (i & j & _ & _ & _ & Hv); apply number_value_inv in Hv; apply Hv].
        replace (forallb _ entries) with true; [|symmetry; apply forallb_forall; intros [k v] Hx; destruct (T1 _ _ Hx) as (i & j & Hi & Hj & _ & Hv); apply number_value_inv in Hv; destruct Hv as [_ Ev]; cbn [snd]; rewrite Ev; apply prob01_fin; apply HP; assumption].
        cbn [bind]. fold (to_dict entries).
        assert (HE : forall i j, i < n -> j < n -> In ([nth i l EmptyString; nth j l EmptyString], Fin (mget P i j)) (to_dict entries)).
        { intros i j Hi Hj. destruct (T2 i j Hi Hj) as (v & Hx). destruct (T1 _ _ Hx) as (i' & j' & Hi' & Hj' & E & Hv). injection E as E1 E2. apply nth_inj in E1; try lia; auto. apply nth_inj in E2; try lia; auto. subst i' j'. apply number_value_inv in Hv. destruct Hv as [_ Ev].
          apply in_map_iff. eexists. split; [|exact Hx]. cbn. rewrite Ev. reflexivity. }
        apply chain_of_dict_inv; rewrite ?HDg; auto.
        -- intros k v Hx. apply in_map_iff in Hx. destruct Hx as ([k' v'] & E & Hx). injection E as <- <-. destruct (T1 _ _ Hx) as (i & j & Hi & Hj & -> & _). cbn. eexists _, _. split; [reflexivity|]. split; apply nth_In; lia.
        -- intros a b Ha Hb. apply in_nth in Ha, Hb. destruct Ha as (i & Hi & <-), Hb as (j & Hj & <-). apply in_map_iff. exists ([nth i l EmptyString; nth j l EmptyString], Fin (mget P i j)). split; [reflexivity|]. apply HE; lia.
        -- intros k v Hx. apply in_map_iff in Hx. destruct Hx as ([k' v'] & E & Hx). injection E as <- <-. destruct (T1 _ _ Hx) as (i & j & _ & _ & _ & Hv). apply number_value_inv in Hv. destruct Hv as [_ Ev]. cbn. eauto.
        -- rewrite HL. split; [exact Hn|]. exists P. split; [exact HW|]. split; [intros i j Hi Hj; apply lookup_in; [exact HND|apply HE; assumption]|]. split; [exact HS|reflexivity].
      * symmetry. apply forallb_forall. intros a Ha. apply forallb_forall. intros b Hb. destruct (HI a Ha) as (i & Hi & ->), (HI b Hb) as (j & Hj & ->). apply in_keys_iff. destruct (T2 i j Hi Hj) as (v & Hx). apply in_map_iff. eexists. split; [|exact Hx]. reflexivity.
    + intros ->. destruct (T2 0 0) as (v & []); lia.
    + apply forallb_forall. intros [k v] Hx. destruct (T1 _ _ Hx) as (i & j & Hi & Hj & -> & _). cbn. rewrite !HB by (apply nth_In; lia). reflexivity.
Qed.
