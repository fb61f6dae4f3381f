(** L_Valid1: proofs about the conversion of Python values to numeric arrays. *)
From Verif Require Export S_Validation L_Gen1.
From Coq Require Import Lia.

Lemma pyval_rect' (Q : pyval -> Prop) :
  (forall v, scalar v -> Q v) -> (forall a, Q (PArr a)) ->
  (forall l, (forall x, In x l -> Q x) -> Q (PList l)) ->
  (forall l, (forall x, In x l -> Q x) -> Q (PTuple l)) -> forall v, Q v.
Proof.
  intros Hs Ha Hl Ht. fix IH 1. intros v. destruct v; try (apply Hs; exact I).
  - apply Hl. revert l. fix IHl 1. intros [|x l] y Hy; [destruct Hy|]. destruct Hy as [<-|Hy]; [apply IH|exact (IHl l y Hy)].
  - apply Ht. revert l. fix IHl 1. intros [|x l] y Hy; [destruct Hy|]. destruct Hy as [<-|Hy]; [apply IH|exact (IHl l y Hy)].
  - apply Ha.
Qed.

Lemma all_some_iff {A} (l : list (option A)) r : all_some l = Some r <-> l = map Some r.
Proof.
  revert r; induction l as [|[a|] l IH]; intros r; cbn [all_some].
  - split; intros H; [inversion H; reflexivity|]. destruct r; [reflexivity|discriminate].
  - destruct (all_some l) as [r'|] eqn:E.
    + split; intros H; [inversion H; subst; cbn; f_equal; apply IH; reflexivity|].
      destruct r as [|b r]; [discriminate|]. cbn [map] in H. injection H as -> Hl. pose proof (proj2 (IH r) Hl) as H3. inversion H3; reflexivity.
    + split; [discriminate|]. intros H. destruct r as [|b r]; [discriminate|]. cbn [map] in H. injection H as -> Hl.
      pose proof (proj2 (IH r) Hl) as H3. discriminate.
  - split; [discriminate|]. intros H; destruct r; discriminate.
Qed.

Lemma shape_eqb_eq s t : shape_eqb s t = true <-> s = t.
Proof. unfold shape_eqb. destruct (list_eq_dec Nat.eq_dec s t); split; intros; congruence. Qed.

Lemma kind_join_other a b : kind_join a b = KOther <-> a = KOther \/ b = KOther.
Proof. destruct a, b; cbn; intuition discriminate. Qed.
Lemma kind_join_bool a b : kind_join a b = KBool <-> a = KBool /\ b = KBool.
Proof. destruct a, b; cbn; intuition discriminate. Qed.
Lemma kinds_other l : fold_right kind_join KBool l = KOther <-> In KOther l.
Proof.
  induction l as [|k l IH]; cbn [fold_right In]; [split; [discriminate|tauto]|].
  rewrite kind_join_other, IH. intuition.
Qed.
Lemma kinds_bool l : fold_right kind_join KBool l = KBool <-> forall k, In k l -> k = KBool.
Proof.
  induction l as [|k l IH]; cbn [fold_right In]; [split; [tauto|reflexivity]|].
  rewrite kind_join_bool, IH. split.
  - intros [H1 H2] k' [<-|H]; auto.
  - intros H; split; [apply H; auto|intros; apply H; auto].
Qed.

(** Inversion of a successful stacking. *)
Lemma map_eq_Some {A B} (f : A -> option B) l r : map f l = map Some r ->
  length r = length l /\ forall i x, nth_error l i = Some x -> exists b, nth_error r i = Some b /\ f x = Some b.
Proof.
  revert r; induction l as [|y l IH]; intros [|b r] H; try discriminate; [split; [reflexivity|intros [|i] x Hx; discriminate]|].
  inversion H. destruct (IH r H2) as [HL HN]. split; [cbn; congruence|].
  intros [|i] x Hx; cbn in *; [inversion Hx; subst; exists b; auto|apply HN; exact Hx].
Qed.

Definition np_list (l : list pyval) : option arr :=
  match all_some (map np_array l) with None => None | Some subs => stack subs end.
Lemma np_array_list l : np_array (PList l) = np_list l.
Proof. reflexivity. Qed.
Lemma np_array_tuple l : np_array (PTuple l) = np_list l.
Proof. reflexivity. Qed.

Lemma np_list_inv l a : np_list l = Some a ->
  (l = [] /\ a_shape a = [0] /\ a_kind a = KFloat) \/
  (l <> [] /\ exists subs s, map np_array l = map Some subs /\ (forall b, In b subs -> a_shape b = s)
     /\ a_shape a = length l :: s /\ a_kind a = fold_right kind_join KBool (map a_kind subs)
     /\ (forall i b idx, nth_error subs i = Some b -> a_at a (i :: idx) = a_at b idx)).
Proof.
  unfold np_list. destruct (all_some (map np_array l)) as [subs|] eqn:E; [|discriminate].
  apply all_some_iff in E. intros H. destruct l as [|x l].
  - destruct subs; [|discriminate]. cbn in H. inversion H; subst. left; auto.
  - right; split; [discriminate|]. destruct subs as [|b subs]; [discriminate|]. cbn [stack] in H.
    destruct (forallb _ _) eqn:F; [|discriminate]. inversion H; subst; clear H. cbn [a_shape a_kind a_at].
    exists (b :: subs), (a_shape b). split; [exact E|]. split.
    + intros c Hc. rewrite forallb_forall in F. apply shape_eqb_eq. apply F. exact Hc.
    + split; [f_equal; pose proof (f_equal (@length _) E) as HL; rewrite !map_length in HL; symmetry; exact HL|].
      split; [reflexivity|]. intros i c idx Hi. change (a_at (nth i (b :: subs) b) idx = a_at c idx). rewrite (nth_error_nth _ _ b Hi). reflexivity.
Qed.

Lemma np_shape v a : np_array v = Some a -> has_shape v (a_shape a).
Proof.
  revert a. induction v using pyval_rect'; intros a' Ha.
  - destruct v; try destruct H; cbn in Ha; inversion Ha; subst; cbn; apply sh_scalar; exact I.
  - cbn in Ha. inversion Ha; subst. constructor.
  - rewrite np_array_list in Ha. apply np_list_inv in Ha. destruct Ha as [(-> & -> & _)|(Hl & subs & s & Hm & Hs & -> & _)]; [constructor|].
    apply sh_list; [exact Hl|]. intros x Hx. destruct (map_eq_Some _ _ _ Hm) as [HL HN].
    destruct (In_nth_error _ _ Hx) as [i Hi]. destruct (HN i x Hi) as (b & Hb & Hb'). rewrite <- (Hs b); [|eapply nth_error_In; exact Hb].
    apply H; assumption.
  - rewrite np_array_tuple in Ha. apply np_list_inv in Ha. destruct Ha as [(-> & -> & _)|(Hl & subs & s & Hm & Hs & -> & _)]; [constructor|].
    apply sh_tuple; [exact Hl|]. intros x Hx. destruct (map_eq_Some _ _ _ Hm) as [HL HN].
    destruct (In_nth_error _ _ Hx) as [i Hi]. destruct (HN i x Hi) as (b & Hb & Hb'). rewrite <- (Hs b); [|eapply nth_error_In; exact Hb].
    apply H; assumption.
Qed.

Lemma np_list_complete l s : l <> [] -> (forall x, In x l -> exists a, np_array x = Some a /\ a_shape a = s) ->
  exists a, np_list l = Some a /\ a_shape a = length l :: s.
Proof.
  intros Hl H.
  assert (HS : exists subs, map np_array l = map Some subs /\ forall b, In b subs -> a_shape b = s).
  { clear Hl. induction l as [|x l IH]; [exists []; split; [reflexivity|intros b []]|].
    destruct (H x) as (b & Hb & Hs); [left; reflexivity|]. destruct IH as (subs & H1 & H2); [intros y Hy; apply H; right; exact Hy|].
    exists (b :: subs). split; [cbn; rewrite Hb, H1; reflexivity|]. intros c [<-|Hc]; auto. }
  destruct HS as (subs & Hm & Hs). unfold np_list. rewrite (proj2 (all_some_iff _ _) Hm).
  pose proof (f_equal (@length _) Hm) as HL. rewrite !map_length in HL.
  destruct subs as [|b subs]; [destruct l; [congruence|discriminate]|]. cbn [stack].
  assert (F : forallb (fun b0 => shape_eqb (a_shape b0) (a_shape b)) (b :: subs) = true).
  { apply forallb_forall. intros c Hc. apply shape_eqb_eq. rewrite (Hs c Hc), (Hs b); [reflexivity|left; reflexivity]. }
  rewrite F. eexists; split; [reflexivity|]. cbn [a_shape]. rewrite (Hs b); [|left; reflexivity]. congruence.
Qed.

Lemma np_complete v s : has_shape v s -> exists a, np_array v = Some a /\ a_shape a = s.
Proof.
  revert s. induction v using pyval_rect'; intros s Hs.
  - inversion Hs; subst; try destruct H.
    destruct v; try destruct H; cbn; eexists; split; reflexivity.
  - inversion Hs; subst; [destruct H|]. exists a; auto.
  - inversion Hs; subst; [destruct H0| |].
    + eexists; split; [reflexivity|reflexivity].
    + rewrite np_array_list. apply np_list_complete; [assumption|]. intros x Hx. apply H; auto.
  - inversion Hs; subst; [destruct H0| |].
    + eexists; split; [reflexivity|reflexivity].
    + rewrite np_array_tuple. apply np_list_complete; [assumption|]. intros x Hx. apply H; auto.
Qed.

Lemma np_kind_other v a : np_array v = Some a -> (a_kind a = KOther <-> has_kind v KOther).
Proof.
  revert a. induction v using pyval_rect'; intros a' Ha.
  - destruct v; try destruct H; cbn in Ha; inversion Ha; subst; cbn [scalar_arr a_kind];
      try (split; intros HH; [try discriminate; constructor|inversion HH; reflexivity]).
    destruct (int_fits z) eqn:E; unfold int_fits in E.
    + apply andb_true_iff in E. destruct E as [E1 E2]. apply Z.leb_le in E1. apply Z.ltb_lt in E2.
      split; [discriminate|]. intros HH; inversion HH; subst. exfalso; lia.
    + split; [|reflexivity]. intros _. apply ki_big. intros [H1 H2]. apply Z.leb_le in H1. apply Z.ltb_lt in H2. rewrite H1, H2 in E. discriminate.
  - cbn in Ha. inversion Ha; subst. split; intros HH; [rewrite <- HH; constructor|inversion HH; reflexivity].
  - rewrite np_array_list in Ha. apply np_list_inv in Ha. destruct Ha as [(-> & _ & ->)|(Hl & subs & s & Hm & _ & _ & -> & _)].
    + split; [discriminate|]. intros HH; inversion HH; subst. contradiction.
    + rewrite kinds_other. destruct (map_eq_Some _ _ _ Hm) as [HL HN]. split.
      * intros HI. apply in_map_iff in HI. destruct HI as (b & Hk & Hb).
        assert (Hb' : In (Some b) (map np_array l)) by (rewrite Hm; apply in_map; exact Hb).
        apply in_map_iff in Hb'. destruct Hb' as (x & Hx & HIx). apply ki_list with x; [exact HIx|]. apply (H x HIx b Hx). exact Hk.
      * intros HK. inversion HK as [| | | | | | | | | | | |l' v k' H2 H3|l' v k' H2 H3]; subst. destruct (In_nth_error _ _ H2) as [i Hi]. destruct (HN i v Hi) as (b & Hb & Hb').
        apply in_map_iff. exists b. split; [apply (H v H2 b Hb'); exact H3|]. eapply nth_error_In; exact Hb.
  - rewrite np_array_tuple in Ha. apply np_list_inv in Ha. destruct Ha as [(-> & _ & ->)|(Hl & subs & s & Hm & _ & _ & -> & _)].
    + split; [discriminate|]. intros HH; inversion HH; subst. contradiction.
    + rewrite kinds_other. destruct (map_eq_Some _ _ _ Hm) as [HL HN]. split.
      * intros HI. apply in_map_iff in HI. destruct HI as (b & Hk & Hb).
        assert (Hb' : In (Some b) (map np_array l)) by (rewrite Hm; apply in_map; exact Hb).
        apply in_map_iff in Hb'. destruct Hb' as (x & Hx & HIx). apply ki_tuple with x; [exact HIx|]. apply (H x HIx b Hx). exact Hk.
      * intros HK. inversion HK as [| | | | | | | | | | | |l' v k' H2 H3|l' v k' H2 H3]; subst. destruct (In_nth_error _ _ H2) as [i Hi]. destruct (HN i v Hi) as (b & Hb & Hb').
        apply in_map_iff. exists b. split; [apply (H v H2 b Hb'); exact H3|]. eapply nth_error_In; exact Hb.
Qed.

Lemma np_kind_bool v a : np_array v = Some a -> (a_kind a = KBool <-> forall k, has_kind v k -> k = KBool).
Proof.
  revert a. induction v using pyval_rect'; intros a' Ha.
  - destruct v; try destruct H; cbn in Ha; inversion Ha; subst; cbn [scalar_arr a_kind].
    all: try (split; [discriminate|]; intros HH; apply HH; constructor; fail).
    + split; [|reflexivity]. intros _ k HK. inversion HK; reflexivity.
    + split; [destruct (int_fits z); discriminate|]. intros HH.
      destruct (Z_le_gt_dec (-9223372036854775808) z) as [H1|H1]; [destruct (Z_lt_le_dec z 18446744073709551616) as [H2|H2]|].
      * specialize (HH KInt (ki_int z (conj H1 H2))). discriminate.
      * assert (K : has_kind (PInt z) KOther) by (apply ki_big; lia). specialize (HH _ K). discriminate.
      * assert (K : has_kind (PInt z) KOther) by (apply ki_big; lia). specialize (HH _ K). discriminate.
  - cbn in Ha. inversion Ha; subst. split; [intros HH k HK; inversion HK; subst; exact HH|intros HH; apply HH; constructor].
  - rewrite np_array_list in Ha. apply np_list_inv in Ha. destruct Ha as [(-> & _ & ->)|(Hl & subs & s & Hm & _ & _ & -> & _)].
    + split; [discriminate|]. intros HH. specialize (HH _ ki_nil_l). discriminate.
    + rewrite kinds_bool. destruct (map_eq_Some _ _ _ Hm) as [HL HN]. split.
      * intros HI k HK. inversion HK as [| | | | | | | | | | | |l' v k' H2 H3|l' v k' H2 H3]; subst; [contradiction|]. destruct (In_nth_error _ _ H2) as [i Hi]. destruct (HN i v Hi) as (b & Hb & Hb').
        apply (H v H2 b Hb'); [|exact H3]. apply HI. apply in_map_iff. exists b; split; [reflexivity|eapply nth_error_In; exact Hb].
      * intros HI k HK. apply in_map_iff in HK. destruct HK as (b & <- & Hb).
        assert (Hb' : In (Some b) (map np_array l)) by (rewrite Hm; apply in_map; exact Hb).
        apply in_map_iff in Hb'. destruct Hb' as (x & Hx & HIx). apply (H x HIx b Hx). intros k HK. apply HI. apply ki_list with x; assumption.
  - rewrite np_array_tuple in Ha. apply np_list_inv in Ha. destruct Ha as [(-> & _ & ->)|(Hl & subs & s & Hm & _ & _ & -> & _)].
    + split; [discriminate|]. intros HH. specialize (HH _ ki_nil_t). discriminate.
    + rewrite kinds_bool. destruct (map_eq_Some _ _ _ Hm) as [HL HN]. split.
      * intros HI k HK. inversion HK as [| | | | | | | | | | | |l' v k' H2 H3|l' v k' H2 H3]; subst; [contradiction|]. destruct (In_nth_error _ _ H2) as [i Hi]. destruct (HN i v Hi) as (b & Hb & Hb').
        apply (H v H2 b Hb'); [|exact H3]. apply HI. apply in_map_iff. exists b; split; [reflexivity|eapply nth_error_In; exact Hb].
      * intros HI k HK. apply in_map_iff in HK. destruct HK as (b & <- & Hb).
        assert (Hb' : In (Some b) (map np_array l)) by (rewrite Hm; apply in_map; exact Hb).
        apply in_map_iff in Hb'. destruct Hb' as (x & Hx & HIx). apply (H x HIx b Hx). intros k HK. apply HI. apply ki_tuple with x; assumption.
Qed.

Lemma np_entry v a idx : np_array v = Some a -> ~ has_kind v KOther -> Forall2 lt idx (a_shape a) -> has_entry v idx (a_at a idx).
Proof.
  revert a idx. induction v using pyval_rect'; intros a' idx Ha HK HI.
  - destruct v; try destruct H; cbn in Ha; inversion Ha; subst; cbn [scalar_arr a_at a_shape] in *; inversion HI; subst;
      try constructor; exfalso; apply HK; constructor.
  - cbn in Ha. inversion Ha; subst. constructor.
  - rewrite np_array_list in Ha. apply np_list_inv in Ha. destruct Ha as [(-> & Hs & _)|(Hl & subs & s & Hm & Hs & HS & _ & HA)].
    + rewrite Hs in HI. inversion HI; subst. lia.
    + rewrite HS in HI. inversion HI as [|i n idx' s' Hi Hidx]; subst.
      destruct (map_eq_Some _ _ _ Hm) as [HL HN]. destruct (nth_error l i) as [x|] eqn:Ex; [|apply nth_error_None in Ex; lia].
      destruct (HN i x Ex) as (b & Hb & Hb'). rewrite (HA i b idx' Hb). apply en_list with x; [exact Ex|].
      assert (HIx : In x l) by (eapply nth_error_In; exact Ex).
      apply H; [exact HIx|exact Hb'| |rewrite (Hs b); [exact Hidx|eapply nth_error_In; exact Hb]].
      intros HK'. apply HK. apply ki_list with x; assumption.
  - rewrite np_array_tuple in Ha. apply np_list_inv in Ha. destruct Ha as [(-> & Hs & _)|(Hl & subs & s & Hm & Hs & HS & _ & HA)].
    + rewrite Hs in HI. inversion HI; subst. lia.
    + rewrite HS in HI. inversion HI as [|i n idx' s' Hi Hidx]; subst.
      destruct (map_eq_Some _ _ _ Hm) as [HL HN]. destruct (nth_error l i) as [x|] eqn:Ex; [|apply nth_error_None in Ex; lia].
      destruct (HN i x Ex) as (b & Hb & Hb'). rewrite (HA i b idx' Hb). apply en_tuple with x; [exact Ex|].
      assert (HIx : In x l) by (eapply nth_error_In; exact Ex).
      apply H; [exact HIx|exact Hb'| |rewrite (Hs b); [exact Hidx|eapply nth_error_In; exact Hb]].
      intros HK'. apply HK. apply ki_tuple with x; assumption.
Qed.

Lemma has_entry_fun v idx c : has_entry v idx c -> forall d, has_entry v idx d -> c = d.
Proof.
  induction 1; intros d Hd; inversion Hd; subst; try reflexivity.
  - apply IHhas_entry. congruence.
  - apply IHhas_entry. congruence.
Qed.

Lemma kind_number_iff k : kind_number k = true <-> k <> KOther /\ k <> KBool.
Proof. destruct k; cbn; intuition congruence. Qed.

Lemma kind_join_in a b : kind_join a b = a \/ kind_join a b = b.
Proof. destruct a, b; cbn; auto. Qed.
Lemma kinds_in l : l <> [] -> In (fold_right kind_join KBool l) l.
Proof.
  induction l as [|k l IH]; [congruence|]. intros _. cbn [fold_right]. destruct l as [|k' l].
  - cbn. left. destruct k; reflexivity.
  - destruct (kind_join_in k (fold_right kind_join KBool (k' :: l))) as [->| ->]; [left; reflexivity|right; apply IH; discriminate].
Qed.

Lemma np_kind_member v a : np_array v = Some a -> has_kind v (a_kind a).
Proof.
  revert a. induction v using pyval_rect'; intros a' Ha.
  - destruct v; try destruct H; cbn in Ha; inversion Ha; subst; cbn [scalar_arr a_kind]; try constructor.
    destruct (int_fits z) eqn:E; unfold int_fits in E.
    + apply andb_true_iff in E. destruct E as [E1 E2]. apply Z.leb_le in E1. apply Z.ltb_lt in E2. constructor; lia.
    + apply ki_big. intros [H1 H2]. apply Z.leb_le in H1. apply Z.ltb_lt in H2. rewrite H1, H2 in E. discriminate.
  - cbn in Ha. inversion Ha; subst. constructor.
  - rewrite np_array_list in Ha. apply np_list_inv in Ha. destruct Ha as [(-> & _ & ->)|(Hl & subs & s & Hm & _ & _ & -> & _)]; [constructor|].
    assert (HI : In (fold_right kind_join KBool (map a_kind subs)) (map a_kind subs)).
    { apply kinds_in. destruct subs; [destruct l; [congruence|discriminate]|discriminate]. }
    apply in_map_iff in HI. destruct HI as (b & <- & Hb).
    assert (Hb' : In (Some b) (map np_array l)) by (rewrite Hm; apply in_map; exact Hb).
    apply in_map_iff in Hb'. destruct Hb' as (x & Hx & HIx). apply ki_list with x; auto.
  - rewrite np_array_tuple in Ha. apply np_list_inv in Ha. destruct Ha as [(-> & _ & ->)|(Hl & subs & s & Hm & _ & _ & -> & _)]; [constructor|].
    assert (HI : In (fold_right kind_join KBool (map a_kind subs)) (map a_kind subs)).
    { apply kinds_in. destruct subs; [destruct l; [congruence|discriminate]|discriminate]. }
    apply in_map_iff in HI. destruct HI as (b & <- & Hb).
    assert (Hb' : In (Some b) (map np_array l)) by (rewrite Hm; apply in_map; exact Hb).
    apply in_map_iff in Hb'. destruct Hb' as (x & Hx & HIx). apply ki_tuple with x; auto.
Qed.

(** extract_numeric succeeds exactly on the arrays of numbers. *)
Lemma all_numbers_np v a : np_array v = Some a -> (all_numbers v <-> kind_number (a_kind a) = true).
Proof.
  intros Ha. rewrite kind_number_iff. pose proof (np_kind_other v a Ha) as HO. pose proof (np_kind_bool v a Ha) as HB. unfold all_numbers. split.
  - intros [H1 (k & Hk & Hk')]. split; [intros E; apply (H1 KOther); [apply HO; exact E|reflexivity]|].
    intros E. apply Hk'. apply HB; assumption.
  - intros [H1 H2]. split; [intros k Hk E; subst; apply H1, HO; exact Hk|].
    exists (a_kind a). split; [apply np_kind_member; exact Ha|exact H2].
Qed.

Lemma extract_ok v a : extract_numeric v = Ok a ->
  exists E, numeric_array v (f_shape a) E /\ forall idx, f_at a idx = fst (E idx).
Proof.
  unfold extract_numeric. destruct v; try discriminate.
  - destruct (np_array (PList l)) as [b|] eqn:E; [|discriminate]. destruct (kind_number (a_kind b)) eqn:Ek; [|discriminate].
    intros H; inversion H; subst; clear H. cbn [f_shape f_at]. exists (a_at b). split; [|reflexivity]. cbn [numeric_array].
    split; [apply np_shape; exact E|]. split; [apply (all_numbers_np _ _ E); exact Ek|]. intros idx HI. apply np_entry; auto.
    intros HK. apply (np_kind_other _ _ E) in HK. rewrite HK in Ek. discriminate.
  - destruct (kind_number (a_kind a0)) eqn:Ek; [|discriminate].
    intros H; inversion H; subst; clear H. cbn [f_shape f_at]. exists (a_at a0). split; [|reflexivity]. cbn [numeric_array].
    split; [constructor|]. split; [|intros; constructor]. apply (all_numbers_np (PArr a0) a0 eq_refl). exact Ek.
  - destruct (kind_number (a_kind a0)) eqn:Ek; [|discriminate].
    intros H; inversion H; subst; clear H. cbn [f_shape f_at]. exists (a_at a0). split; [|reflexivity]. cbn [numeric_array].
    split; [reflexivity|]. split; [|reflexivity]. apply kind_number_iff. exact Ek.
Qed.

Lemma extract_complete v s E : numeric_array v s E ->
  exists a, extract_numeric v = Ok a /\ f_shape a = s /\ forall idx, Forall2 lt idx s -> f_at a idx = fst (E idx).
Proof.
  unfold extract_numeric. destruct v; cbn [numeric_array]; try contradiction.
  - intros (Hs & Hn & He). destruct (np_complete _ _ Hs) as (b & Hb & Hbs). rewrite Hb.
    rewrite (proj1 (all_numbers_np _ _ Hb) Hn). eexists; split; [reflexivity|]. cbn [f_shape f_at]. split; [exact Hbs|].
    intros idx HI. f_equal. eapply has_entry_fun; [|apply He; exact HI]. apply np_entry; [exact Hb| |rewrite Hbs; exact HI].
    intros HK. destruct Hn as [Hn _]. apply (Hn _ HK). reflexivity.
  - intros (Hs & Hn & He). inversion Hs; subst; [contradiction|]. pose proof (proj1 (all_numbers_np (PArr a) a eq_refl) Hn) as Hk.
    rewrite Hk. eexists; split; [reflexivity|]. cbn [f_shape f_at]. split; [reflexivity|].
    intros idx HI. f_equal. eapply has_entry_fun; [|apply He; exact HI]. constructor.
  - intros (<- & Hk & <-). apply kind_number_iff in Hk. rewrite Hk. eexists; split; [reflexivity|]. cbn. split; auto.
Qed.
