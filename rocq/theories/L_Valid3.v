(** L_Valid3: what the remaining validators accept. *)
From Verif Require Export L_Valid2.
From Coq Require Import Lia.

Lemma sort_nat_strict ks : NoDup ks -> StronglySorted lt (sort_nat ks).
Proof.
  intros HN. pose proof (sort_sorted ks) as HS. assert (HN' : NoDup (sort_nat ks)) by (eapply Permutation_NoDup; [apply sort_perm|exact HN]).
  apply Sorted_StronglySorted in HS; [|intros x y z; apply Nat.le_trans].
  revert HN' HS. generalize (sort_nat ks). intros l. induction l as [|x l IH]; intros HN' HS; [constructor|].
  inversion HN' as [|? ? H1 H2]; subst. inversion HS as [|? ? H3 H4]; subst. constructor; [apply IH; assumption|].
  rewrite Forall_forall in *. intros y Hy. specialize (H4 y Hy). assert (x <> y) by (intros ->; contradiction). lia.
Qed.
Lemma strict_sorted_unique (l1 l2 : list nat) : StronglySorted lt l1 -> StronglySorted lt l2 -> (forall k, In k l1 <-> In k l2) -> l1 = l2.
Proof.
  revert l2; induction l1 as [|x l1 IH]; intros [|y l2] H1 H2 HI; try reflexivity.
  - exfalso. apply (proj2 (HI y)). left; reflexivity.
  - exfalso. apply (proj1 (HI x)). left; reflexivity.
  - inversion H1 as [|? ? H3 H4]; subst. inversion H2 as [|? ? H5 H6]; subst. rewrite Forall_forall in *.
    assert (x = y).
    { destruct (proj1 (HI x) (or_introl eq_refl)) as [E|E]; [congruence|]. destruct (proj2 (HI y) (or_introl eq_refl)) as [E'|E']; [congruence|].
      specialize (H4 _ E'). specialize (H6 _ E). lia. }
    subst y. f_equal. apply IH; auto. intros k. split; intros Hk.
    + destruct (proj1 (HI k) (or_intror Hk)) as [<-|E]; [specialize (H4 _ Hk); lia|exact E].
    + destruct (proj2 (HI k) (or_intror Hk)) as [<-|E]; [specialize (H6 _ Hk); lia|exact E].
Qed.

Lemma count_guard (minimum : option nat) n mx : 1 <= n ->
  (match minimum with None | Some 1 => Nat.leb n mx | Some m => Nat.leb m n && Nat.leb n mx end = true <-> opt_get 1 minimum <= n /\ n <= mx).
Proof.
  intros Hn. destruct minimum as [[|[|m]]|]; cbn [opt_get]; rewrite ?andb_true_iff, ?Nat.leb_le; lia.
Qed.

Lemma v_labels_current_iff v labels subset minimum r : labels_ok labels ->
  (v_labels_current v labels subset minimum = Ok r <-> selection labels subset minimum v r).
Proof.
  intros [HN HB]. unfold v_labels_current, selection. split.
  - destruct v; cbn [is_integer is_string as_int as_str]; try discriminate.
    + destruct (in_range z (length labels)) eqn:E; cbv iota; [|discriminate]. apply in_range_iff in E. destruct E as (k & Hk & ->).
      intros H; inversion H; subst. left. exists k. rewrite Nat2Z.id. split; [|reflexivity]. split; [exact Hk|left; reflexivity].
    + destruct (nonblank s) eqn:E; [|discriminate]. destruct (find_label labels s) as [k|] eqn:Ef; [|discriminate].
      intros H; inversion H; subst. left. exists k. split; [|reflexivity]. destruct (find_label_Some _ _ _ Ef) as [Hk Hs].
      split; [exact Hk|right; exists s; auto].
    + destruct (positions l labels) as [ks|] eqn:E; [|discriminate]. apply positions_iff in E; [|assumption|assumption]. cbn [bind].
      destruct (nodupb Nat.eqb ks) eqn:E1; cbv iota; [|discriminate]. apply (nodupb_NoDup Nat.eqb Nat.eqb_eq) in E1.
      destruct (Nat.eqb (length ks) 0) eqn:E2; cbn [negb]; cbv iota; [discriminate|]. apply Nat.eqb_neq in E2. cbv zeta.
      match goal with |- context [if ?b then _ else _] => match b with context [match minimum with _ => _ end] => destruct b eqn:E3 end end; cbv iota; [|discriminate].
      apply count_guard in E3; [|lia]. intros H; inversion H; subst. right. exists l, ks. split; [reflexivity|]. split; [exact E|].
      split; [exact E1|]. split; [lia|]. split; [apply E3|]. split; [apply E3|]. split; [apply sort_nat_strict; exact E1|].
      intros k. split; apply Permutation_in; [symmetry|]; apply sort_perm.
  - intros [(k & [Hk [-> |(s & -> & Hs)]] & ->)|(l & ks & -> & HD & HK & H1 & H2 & H3 & H4 & H5)]; cbn [is_integer is_string as_int as_str].
    + rewrite (proj2 (in_range_iff _ _)) by (exists k; auto). cbv iota. rewrite Nat2Z.id. reflexivity.
    + rewrite (HB s) by (eapply nth_error_In; exact Hs). rewrite (proj2 (find_label_iff labels s k HN) Hs). reflexivity.
    + rewrite (proj2 (positions_iff l labels ks HN HB) HD). cbn [bind]. rewrite (proj2 (nodupb_NoDup Nat.eqb Nat.eqb_eq ks) HK). cbv iota.
      destruct (Nat.eqb (length ks) 0) eqn:E2; [apply Nat.eqb_eq in E2; lia|]. cbn [negb]. cbv iota zeta.
      rewrite (proj2 (count_guard minimum (length ks) _ H1)) by (split; assumption). cbv iota. f_equal.
      apply strict_sorted_unique; [apply sort_nat_strict; exact HK|exact H4|]. intros k. rewrite H5.
      split; apply Permutation_in; [symmetry|]; apply sort_perm.
Qed.

(** ** Partitions *)
Lemma cut_concat (blocks : list (list nat)) : cut (map (@length nat) blocks) (concat blocks) = blocks.
Proof.
  induction blocks as [|b bs IH]; [reflexivity|]. cbn [map concat cut]. f_equal.
  - rewrite firstn_app, firstn_all, Nat.sub_diag. cbn [firstn]. apply app_nil_r.
  - rewrite skipn_app, skipn_all, Nat.sub_diag. cbn [skipn app]. exact IH.
Qed.
Lemma cut_lengths groups l : list_sum groups = length l -> map (@length nat) (cut groups l) = groups /\ concat (cut groups l) = l.
Proof.
  revert l; induction groups as [|g gs IH]; intros l HL; cbn [cut map concat].
  - destruct l; [split; reflexivity|discriminate].
  - assert (Hg : g <= length l) by (change (list_sum (g :: gs)) with (g + list_sum gs) in HL; lia).
    destruct (IH (skipn g l)) as [H1 H2]; [rewrite skipn_length; change (list_sum (g :: gs)) with (g + list_sum gs) in HL; lia|].
    split; [rewrite firstn_length, H1, Nat.min_l by lia; reflexivity|]. rewrite H2. apply firstn_skipn.
Qed.
Lemma list_sum_lengths {A} (ls : list (list A)) : list_sum (map (@length A) ls) = length (concat ls).
Proof. induction ls as [|l ls IH]; [reflexivity|]. cbn [map concat]. rewrite app_length, <- IH. reflexivity. Qed.

Lemma app_inj_len {A} (a b c d : list A) : length a = length c -> a ++ b = c ++ d -> a = c /\ b = d.
Proof.
  revert c; induction a as [|x a IH]; intros [|y c] HL HA; try discriminate; [auto|].
  cbn in HA. injection HA as -> HA. destruct (IH c) as [-> ->]; auto.
Qed.

Lemma map_concat_split {A B} (f : B -> A) (lists : list (list A)) (blocks : list (list B)) :
  map (@length A) lists = map (@length B) blocks -> concat lists = map f (concat blocks) -> lists = map (map f) blocks.
Proof.
  revert blocks; induction lists as [|l ls IH]; intros [|b bs] HL HC; try discriminate; [reflexivity|].
  cbn [map concat] in *. injection HL as H1 H2. rewrite map_app in HC.
  assert (E : l = map f b /\ concat ls = map f (concat bs)).
  { apply app_inj_len; [rewrite map_length; exact H1|exact HC]. }
  destruct E as [-> E]. f_equal. apply IH; assumption.
Qed.

Lemma v_partitions_iff v labels blocks : labels_ok labels ->
  (v_partitions v labels = Ok blocks <->
   block_argument labels v blocks /\ concat blocks = seq 0 (length labels) /\ 2 <= length blocks < length labels).
Proof.
  intros [HN HB]. unfold v_partitions, block_argument. split.
  - destruct v as [| | | | | |parts| | | |]; try discriminate.
    destruct (Nat.leb 2 (length parts) && Nat.ltb (length parts) (length labels)) eqn:E1; cbv iota zeta; [|discriminate].
    apply andb_true_iff in E1. destruct E1 as [E1 E1']. apply Nat.leb_le in E1. apply Nat.ltb_lt in E1'.
    destruct (forallb is_list parts) eqn:E2; cbv iota; [|discriminate].
    set (lists := map (fun p => match p with PList l => l | _ => [] end) parts).
    assert (HP : parts = map PList lists).
    { unfold lists. rewrite map_map. rewrite <- (map_id parts) at 1. apply map_ext_in. intros x Hx.
      rewrite forallb_forall in E2. specialize (E2 x Hx). destruct x; try discriminate. reflexivity. }
    destruct (positions (concat lists) labels) as [flat|] eqn:E3; [|discriminate]. apply positions_iff in E3; [|assumption|assumption]. cbn [bind].
    match goal with |- context [if ?b then _ else _] => destruct b eqn:E4 end; cbv iota; [|discriminate].
    apply andb_true_iff in E4. destruct E4 as [_ E4]. destruct (list_eq_dec Nat.eq_dec flat (seq 0 (length labels))) as [E5|]; [|discriminate].
    intros H; inversion H; subst blocks; clear H.
    assert (HLf : length flat = length (concat lists)).
    { destruct E3 as [_ [E3|E3]]; rewrite E3, map_length; reflexivity. }
    destruct (cut_lengths (map (@length pyval) lists) flat) as [HC1 HC2]; [rewrite list_sum_lengths; auto|].
    assert (HLp : length (cut (map (@length pyval) lists) flat) = length parts).
    { rewrite <- (map_length (@length nat)), HC1, map_length. unfold lists. apply map_length. }
    split; [|split; [rewrite HC2; exact E5|lia]].
    destruct E3 as [_ [E3|E3]]; [left|right].
    + rewrite HP. f_equal. rewrite <- map_map with (f := map (fun k => PInt (Z.of_nat k))). f_equal. apply map_concat_split; [symmetry; exact HC1|]. rewrite HC2. exact E3.
    + rewrite HP. f_equal. rewrite <- map_map with (f := map (fun k => PStr (nth k labels ""%string))). f_equal. apply map_concat_split; [symmetry; exact HC1|]. rewrite HC2. exact E3.
  - intros (HV & HC & HL).
    assert (HG : exists f, v = PList (map (fun b => PList (map f b)) blocks) /\ designates_list labels (map f (concat blocks)) (concat blocks)).
    { assert (HK : forall k, In k (concat blocks) -> k < length labels) by (intros k Hk; rewrite HC in Hk; apply in_seq in Hk; lia).
      destruct HV as [-> | ->]; eexists; (split; [reflexivity|]); (split; [exact HK|]); [left|right]; reflexivity. }
    destruct HG as (f & -> & HD). clear HV. rewrite map_length.
    rewrite (proj2 (Nat.leb_le 2 _)) by lia. rewrite (proj2 (Nat.ltb_lt _ _)) by lia. cbn [andb]. cbv iota zeta.
    assert (E2 : forallb is_list (map (fun b => PList (map f b)) blocks) = true).
    { apply forallb_forall. intros x Hx. apply in_map_iff in Hx. destruct Hx as (b & <- & _). reflexivity. }
    rewrite E2. cbv iota. rewrite map_map.
    change (map (fun x => map f x) blocks) with (map (map f) blocks). rewrite <- concat_map.
    rewrite (proj2 (positions_iff _ labels _ HN HB) HD). cbn [bind].
    assert (E4 : nodupb Nat.eqb (concat blocks) && Nat.eqb (length (concat blocks)) (length labels)
       && (if list_eq_dec Nat.eq_dec (concat blocks) (seq 0 (length labels)) then true else false) = true).
    { rewrite HC. rewrite (proj2 (nodupb_NoDup Nat.eqb Nat.eqb_eq _) (seq_NoDup _ _)), seq_length, Nat.eqb_refl.
      destruct (list_eq_dec _ _ _); [reflexivity|contradiction]. }
    rewrite E4. cbv iota. f_equal.
    rewrite map_map. rewrite (map_ext _ (@length nat)) by (intros; apply map_length). apply cut_concat.
Qed.

(** ** Sequences *)
Lemma v_sequence_iff v labels ks : labels_ok labels ->
  (v_sequence v labels = Ok ks <-> exists l, v = PList l /\ 2 <= length l /\ designates_list labels l ks).
Proof.
  intros [HN HB]. unfold v_sequence. split.
  - destruct v; try discriminate. destruct (Nat.leb 2 (length l)) eqn:E; cbv iota; [|discriminate]. apply Nat.leb_le in E.
    intros H. apply positions_iff in H; [|assumption|assumption]. exists l; auto.
  - intros (l & -> & HL & HD). rewrite (proj2 (Nat.leb_le _ _) HL). cbv iota. apply positions_iff; assumption.
Qed.

(** ** Vectors *)
Lemma idx1 n i : i < n -> Forall2 lt [i] [n].
Proof. intros; repeat constructor; assumption. Qed.

Lemma extract_vector v a n f : extract_numeric v = Ok a -> as_vector a = Some (n, f) ->
  (forall i, i < n -> isfinite (f i) = true) -> real_part_vector v n (tab n (fun i => fin (f i))).
Proof.
  intros Ha Hv Hf. destruct (extract_ok v a Ha) as (E & HE & HA). split; [apply tab_length|]. exists (f_shape a), E. split; [exact HE|].
  unfold as_vector in Hv. destruct (f_shape a) as [|n0 [|m0 [|k0 s0]]] eqn:Hs.
  - inversion Hv; subst. right; right. split; [reflexivity|]. split; [reflexivity|]. rewrite <- HA. rewrite vget_tab by lia. apply isfinite_fin. apply (Hf 0). lia.
  - assert (Hv' : Some (n0, fun i => f_at a [i]) = Some (n, f)) by (destruct n0 as [|[|]]; exact Hv).
    inversion Hv'; subst. left. split; [reflexivity|]. intros i Hi. rewrite <- HA. rewrite vget_tab by assumption. apply isfinite_fin. apply (Hf i Hi).
  - destruct n0 as [|[|n0]]; try discriminate. inversion Hv; subst. right; left. split; [reflexivity|]. intros i Hi. rewrite <- HA. rewrite vget_tab by assumption.
    apply isfinite_fin. apply (Hf i Hi).
  - destruct n0 as [|[|]]; discriminate.
Qed.

Lemma vector_extract v n w : real_part_vector v n w ->
  exists a f, extract_numeric v = Ok a /\ as_vector a = Some (n, f) /\ (forall i, i < n -> f i = Fin (vget w i)) /\ tab n (fun i => fin (f i)) = w.
Proof.
  intros (HL & s & E & HE & HS). destruct (extract_complete v s E HE) as (a & Ha & Hs & Hat). exists a.
  assert (HF : exists f, as_vector a = Some (n, f) /\ forall i, i < n -> f i = Fin (vget w i)).
  { unfold as_vector. rewrite Hs. destruct HS as [[-> H]|[[-> H]|[-> [-> H]]]].
    - exists (fun i => f_at a [i]); split; [destruct n as [|[|]]; reflexivity|]. intros i Hi. cbv beta. rewrite Hat by (apply idx1; exact Hi). apply H; exact Hi.
    - eexists; split; [reflexivity|]. intros i Hi. cbv beta. rewrite Hat by (apply idx2; [lia|exact Hi]). apply H; exact Hi.
    - eexists; split; [reflexivity|]. intros i Hi. cbv beta. assert (i = 0) by lia; subst. rewrite Hat by constructor. exact H. }
  destruct HF as (f & Hf & Hw). exists f. split; [exact Ha|]. split; [exact Hf|]. split; [exact Hw|].
  apply vec_ext with n; [apply tab_length|exact HL|]. intros i Hi. rewrite vget_tab by assumption. rewrite Hw by assumption. reflexivity.
Qed.

Lemma as_vector_shape0 a n f : as_vector a = Some (n, f) -> f_shape a = [0] -> n = 0.
Proof. unfold as_vector. intros H E. rewrite E in H. inversion H; reflexivity. Qed.

Lemma prob01_all n f : all1 n f prob01 = true <-> forall i, i < n -> exists q, f i = Fin q /\ (0 <= q <= 1)%Qc.
Proof. rewrite all1_iff. split; intros H i Hi; apply prob01_iff; apply H; exact Hi. Qed.

Lemma isclose_zero x : (0 <= x)%Qc -> (isclose x 0 = true <-> (x <= atol)%Qc).
Proof. intros H. rewrite isclose_0. rewrite Qcabs_eq_nonneg by exact H. reflexivity. Qed.

Lemma lsum_tab_sumn n (w : vec) : length w = n -> lsum w = sumn n (vget w).
Proof. intros <-. apply lsum_nth. Qed.

Lemma v_vector_iff v t size w : (match t with Unconstrained => exists n, size = Some n /\ 0 < n | _ => True end) ->
  (v_vector v t false size = Ok w <->
   exists n, 0 < n /\ match size with None => True | Some s => n = s end /\ real_part_vector v n w /\ vector_spec t n w).
Proof.
  intros Hside. unfold v_vector. cbn [andb]. cbv iota. split.
  - destruct (extract_numeric v) as [a|] eqn:Ha; [|discriminate]. cbn [bind].
    destruct (as_vector a) as [[n f]|] eqn:Hv; [|discriminate].
    destruct (negb _) eqn:E1; cbv iota; [|discriminate].
    destruct (match size with None => true | Some s => Nat.eqb n s end) eqn:E2; cbv iota; [|discriminate]. cbn [bind].
    destruct (all1 n f prob01) eqn:E3; cbv iota; [|discriminate]. cbv zeta. rewrite prob01_all in E3.
    intros H.
    assert (HR : real_part_vector v n (tab n (fun i => fin (f i)))).
    { apply extract_vector with a; auto. intros i Hi. destruct (E3 i Hi) as (q & -> & _). reflexivity. }
    assert (HP : forall i, i < n -> (0 <= vget (tab n (fun i => fin (f i))) i <= 1)%Qc).
    { intros i Hi. rewrite vget_tab by exact Hi. destruct (E3 i Hi) as (q & -> & Hq). exact Hq. }
    assert (HG : w = tab n (fun i => fin (f i)) /\ 0 < n /\ vector_spec t n w).
    { destruct t.
      - destruct (Nat.eqb n 0) eqn:En; cbn [negb] in H; cbv iota in H; [discriminate|]. apply Nat.eqb_neq in En.
        destruct (isclose _ 0) eqn:Ei; cbv iota in H; [|discriminate]. inversion H; subst. split; [reflexivity|]. split; [lia|]. split; [exact HP|].
        apply isclose_zero; [apply HP; lia|exact Ei].
      - destruct (Nat.eqb n 0) eqn:En; cbn [negb] in H; cbv iota in H; [discriminate|]. apply Nat.eqb_neq in En.
        destruct (isclose _ 0) eqn:Ei; cbv iota in H; [|discriminate]. inversion H; subst. split; [reflexivity|]. split; [lia|]. split; [exact HP|].
        apply isclose_zero; [apply HP; lia|exact Ei].
      - destruct (isclose _ 1) eqn:Ei; cbv iota in H; [|discriminate]. inversion H; subst. split; [reflexivity|].
        apply isclose_one in Ei. rewrite (lsum_tab_sumn n) in Ei by apply tab_length. split; [|split; [exact HP|exact Ei]].
        destruct n; [|lia]. exfalso. cbn [sumn] in Ei. destruct Ei as [Ei _]. apply Qcle_not_lt in Ei. apply Ei. vm_compute. reflexivity.
      - inversion H; subst. split; [reflexivity|]. split; [|split; [exact HP|exact I]]. destruct Hside as (n' & -> & Hn'). apply Nat.eqb_eq in E2. lia. }
    destruct HG as (-> & Hn & HS). exists n. split; [exact Hn|]. split; [destruct size; [apply Nat.eqb_eq; exact E2|exact I]|]. split; assumption.
  - intros (n & Hn & Hsz & HR & HS). destruct (vector_extract v n w HR) as (a & f & -> & Hv & Hf & Hw). cbn [bind]. rewrite Hv.
    assert (E1 : negb (match f_shape a with [0] => true | _ => false end) = true).
    { destruct (f_shape a) as [|[|] [|]] eqn:Es; try reflexivity. pose proof (as_vector_shape0 a n f Hv Es). lia. }
    rewrite E1. cbv iota.
    assert (E2 : match size with None => true | Some s => Nat.eqb n s end = true) by (destruct size; [apply Nat.eqb_eq; exact Hsz|reflexivity]).
    rewrite E2. cbv iota. cbn [bind].
    assert (E3 : all1 n f prob01 = true).
    { apply prob01_all. intros i Hi. exists (vget w i). split; [apply Hf; exact Hi|apply HS; exact Hi]. }
    rewrite E3. cbv iota zeta. rewrite Hw. destruct HS as [HS1 HS2].
    assert (En : negb (Nat.eqb n 0) = true) by (apply negb_true_iff, Nat.eqb_neq; lia).
    destruct t; rewrite ?En; cbv iota.
    + rewrite (proj2 (isclose_zero _ (proj1 (HS1 0 Hn))) HS2). reflexivity.
    + rewrite (proj2 (isclose_zero _ (proj1 (HS1 (n - 1) ltac:(lia)))) HS2). reflexivity.
    + rewrite (lsum_tab_sumn n w (proj1 HR)). rewrite (proj2 (isclose_one _) HS2). reflexivity.
    + reflexivity.
Qed.

(** A single number is accepted for an unconstrained vector and repeated. *)
Lemma v_vector_flex_iff v n w x : is_number v = true -> as_float v = x ->
  (v_vector v Unconstrained true (Some n) = Ok w <->
   w = tab n (fun _ => fin x) /\ (n = 0 \/ exists q, x = Fin q /\ (0 <= q <= 1)%Qc)).
Proof.
  intros Hv Hx. unfold v_vector. rewrite Hv. cbn [andb bind]. cbv iota. cbn [bind]. rewrite Hx. split.
  - destruct (all1 n (fun _ => x) prob01) eqn:E; cbv iota zeta; [|discriminate]. intros H; inversion H; subst. split; [reflexivity|].
    rewrite prob01_all in E. destruct n; [left; reflexivity|right; apply (E 0); lia].
  - intros [-> H]. assert (E : all1 n (fun _ => x) prob01 = true).
    { apply prob01_all. intros i Hi. destruct H as [-> |H]; [lia|exact H]. }
    rewrite E. reflexivity.
Qed.

Lemma v_status_iff v labels w : labels_ok labels -> 0 < length labels ->
  (v_status v labels = Ok w <->
   (exists k, designates1 labels v k /\ w = tab (length labels) (delta k))
   \/ (is_integer v = false /\ is_string v = false /\ real_part_vector v (length labels) w
       /\ (forall i, i < length labels -> (0 <= vget w i <= 1)%Qc) /\ nearly_one (sumn (length labels) (vget w)))).
Proof.
  intros [HN HB] Hpos. unfold v_status. cbv zeta. split.
  - destruct (is_integer v) eqn:E1.
    + destruct v; try discriminate. cbn [as_int]. destruct (in_range z _) eqn:E; cbv iota; [|discriminate].
      apply in_range_iff in E. destruct E as (k & Hk & ->). rewrite Nat2Z.id. intros H; inversion H; subst.
      left. exists k. split; [|reflexivity]. split; [exact Hk|left; reflexivity].
    + destruct (is_string v) eqn:E2.
      * destruct v; try discriminate. cbn [as_str]. destruct (find_label labels s) as [k|] eqn:Ef; [|discriminate].
        intros H; inversion H; subst. left. exists k. destruct (find_label_Some _ _ _ Ef). split; [|reflexivity]. split; [assumption|right; exists s; auto].
      * destruct (extract_numeric v) as [a|] eqn:Ha; [|discriminate]. cbn [bind].
        destruct (as_vector a) as [[n f]|] eqn:Hv; [|discriminate].
        destruct (Nat.eqb n (length labels)) eqn:E3; cbv iota; [|discriminate]. apply Nat.eqb_eq in E3. subst n.
        destruct (all1 _ f prob01) eqn:E4; cbv iota; [|discriminate]. rewrite prob01_all in E4.
        destruct (isclose _ 1) eqn:E5; cbv iota; [|discriminate]. intros H; inversion H; subst; clear H. right.
        split; [reflexivity|]. split; [reflexivity|]. split; [|split].
        -- apply extract_vector with a; auto. intros i Hi. destruct (E4 i Hi) as (q & -> & _). reflexivity.
        -- intros i Hi. rewrite vget_tab by exact Hi. destruct (E4 i Hi) as (q & -> & Hq). exact Hq.
        -- apply isclose_one in E5. rewrite (lsum_tab_sumn (length labels)) in E5 by apply tab_length. exact E5.
  - intros [(k & [Hk [-> |(s & -> & Hs)]] & ->)|(E1 & E2 & HR & HP & HS)].
    + cbn [is_integer as_int]. rewrite (proj2 (in_range_iff _ _)) by (exists k; auto). cbv iota. rewrite Nat2Z.id. reflexivity.
    + cbn [is_integer is_string as_str]. rewrite (HB s) by (eapply nth_error_In; exact Hs). rewrite (proj2 (find_label_iff labels s k HN) Hs). reflexivity.
    + rewrite E1, E2. destruct (vector_extract v _ w HR) as (a & f & -> & Hv & Hf & Hw). cbn [bind]. rewrite Hv, Nat.eqb_refl. cbv iota.
      assert (E4 : all1 (length labels) f prob01 = true).
      { apply prob01_all. intros i Hi. exists (vget w i). split; [apply Hf; exact Hi|apply HP; exact Hi]. }
      rewrite E4. cbv iota. rewrite Hw. rewrite (lsum_tab_sumn _ w (proj1 HR)). rewrite (proj2 (isclose_one _) HS). reflexivity.
Qed.

(** ** Limits *)
Lemma and_iff_both (A B C D : Prop) : (A <-> C) -> (B <-> D) -> (A /\ B <-> C /\ D).
Proof. tauto. Qed.

Lemma v_float_iff v lower upper x : v_float v lower upper = Ok x <->
  v = PFloat (Fin x) /\ above Qclt x lower /\ below Qclt x upper.
Proof.
  assert (HL : forall x, limits_ok Qcleb Qcltb x lower upper = true <-> above Qclt x lower /\ below Qclt x upper).
  { intros y. unfold limits_ok. rewrite andb_true_iff. apply and_iff_both.
    - destruct lower as [[b [|]]|]; cbn [above].
      + rewrite negb_true_iff, <- not_true_iff_false, Qcleb_le. split; [intros H; left; apply Qcnot_le_lt; exact H|intros [H|[H _]]; [apply Qclt_not_le; exact H|discriminate]].
      + rewrite negb_true_iff, <- not_true_iff_false, Qcltb_lt. split.
        * intros H. apply Qcnot_lt_le in H. destruct (Qcle_lt_or_eq _ _ H) as [H'|H']; [left; exact H'|right; auto].
        * intros [H|[_ ->]]; [apply Qcle_not_lt; apply Qclt_le_weak; exact H|apply Qcle_not_lt; apply Qcle_refl].
      + tauto.
    - destruct upper as [[b [|]]|]; cbn [below].
      + rewrite negb_true_iff, <- not_true_iff_false, Qcleb_le. split; [intros H; left; apply Qcnot_le_lt; exact H|intros [H|[H _]]; [apply Qclt_not_le; exact H|discriminate]].
      + rewrite negb_true_iff, <- not_true_iff_false, Qcltb_lt. split.
        * intros H. apply Qcnot_lt_le in H. destruct (Qcle_lt_or_eq _ _ H) as [H'|H']; [left; exact H'|right; auto].
        * intros [H|[_ ->]]; [apply Qcle_not_lt; apply Qclt_le_weak; exact H|apply Qcle_not_lt; apply Qcle_refl].
      + tauto. }
  unfold v_float. split.
  - destruct v as [| | |[y| | |]| | | | | | |]; try discriminate. destruct (limits_ok _ _ _ _ _) eqn:E; cbv iota; [|discriminate].
    intros H; inversion H; subst. split; [reflexivity|apply HL; exact E].
  - intros (-> & H1 & H2). rewrite (proj2 (HL x) (conj H1 H2)). reflexivity.
Qed.

Lemma v_integer_iff v lower upper z : v_integer v lower upper = Ok z <->
  v = PInt z /\ above Z.lt z lower /\ below Z.lt z upper.
Proof.
  assert (HL : forall x, limits_ok Z.leb Z.ltb x lower upper = true <-> above Z.lt x lower /\ below Z.lt x upper).
  { intros y. unfold limits_ok. rewrite andb_true_iff. apply and_iff_both.
    - destruct lower as [[b [|]]|]; cbn [above]; rewrite ?negb_true_iff, ?Z.leb_gt, ?Z.ltb_ge; intuition (try lia; try discriminate).
    - destruct upper as [[b [|]]|]; cbn [below]; rewrite ?negb_true_iff, ?Z.leb_gt, ?Z.ltb_ge; intuition (try lia; try discriminate). }
  unfold v_integer. split.
  - destruct v; try discriminate. destruct (limits_ok _ _ _ _ _) eqn:E; cbv iota; [|discriminate].
    intros H; inversion H; subst. split; [reflexivity|apply HL; exact E].
  - intros (-> & H1 & H2). rewrite (proj2 (HL z) (conj H1 H2)). reflexivity.
Qed.
