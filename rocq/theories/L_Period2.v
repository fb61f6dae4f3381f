(** L_Period2: periods of all classes. *)
From Coq Require Import Permutation Sorted.
From Verif Require Export S_Period L_Period.

Lemma nx_default_ok n p : wf n n p -> nx_ok n p (nx_default p).
Proof.
  intros Hp. split; [apply sccs_enum; exact Hp|]. intros scc Hs. simpl. destruct (sccs_enum n p Hp) as [HP _]. split.
  - apply hd_in. apply HP; exact Hs.
  - intros u v Hu. rewrite filter_In. split; intros [A B]; split; try exact A; apply edgeb_spec; exact B.
Qed.

Section One.
Context (n : nat) (p : mat) (o : nxorder).
Hypothesis (Hp : wf n n p) (HO : nx_ok n p o).
Let E := edge p.

Lemma class_reach B x y : In B (nx_comps o) -> closed n E B -> In x B -> reach n E x y -> In y B.
Proof. intros HB HC Hx [k Hk]. induction Hk as [i Hi|k i j l Hi Hj He Hw IH]; [exact Hx|]. apply IH. apply (HC i j Hx Hj He). Qed.

Lemma scc_closed_spec B : In B (nx_comps o) -> scc_closed p B = true <-> closed n E B.
Proof.
  intros HB. destruct HO as [[HP HM] _]. assert (Hr : nrows p = n) by apply Hp. unfold scc_closed. rewrite Hr, forallb_forall. split.
  - intros H i j Hi Hj He. specialize (H i Hi). rewrite forallb_forall in H. specialize (H j). rewrite in_seq in H. specialize (H ltac:(lia)).
    apply orb_true_iff in H. destruct H as [H|H]; [|apply memn_In; exact H]. exfalso. apply negb_true_iff in H.
    assert (Hin : i < n) by (eapply part_lt; eassumption).
    assert (T : reachb p i j = true) by (apply (reachb_spec n); [exact Hp|exact Hin|exact Hj|apply reach_step; assumption]). congruence.
  - intros HC i Hi. apply forallb_forall. intros j Hj. apply in_seq in Hj. assert (Hin : i < n) by (eapply part_lt; eassumption).
    destruct (reachb p i j) eqn:Er; [|reflexivity]. simpl. apply memn_In. apply (reachb_spec n) in Er; [|exact Hp|exact Hin|lia].
    eapply class_reach; eassumption.
Qed.
Lemma scc_period_spec B : In B (nx_comps o) ->
  exists d, scc_period p o B = Ok d /\
    (closed n E B -> forall x, In x B -> period_of n E x d) /\ (~ closed n E B -> d = 1%Z).
Proof.
  intros HB. pose proof (scc_closed_spec B HB) as HC. unfold scc_period. assert (Hr : nrows p = n) by apply Hp. rewrite Hr.
  destruct HO as [[HP HM] HOS]. destruct (HOS B HB) as [Hst Hsu].
  destruct (scc_closed p B) eqn:Ec.
  - apply proj1 in HC. specialize (HC eq_refl). set (x := nx_start o B) in *.
    assert (Hx : x < n) by (eapply part_lt; eassumption).
    destruct (calculate_period_spec n E (nx_succ o B) x Hx) as (d & Hd & Hper).
    + intros u v Hu. assert (HuB : In u B) by (eapply class_reach; eassumption). rewrite (Hsu u v HuB). split.
      * intros [A B']. split; [eapply part_lt; eassumption|exact B'].
      * intros [A B']. split; [apply (HC u v HuB A B')|exact B'].
    + intros v Hv. assert (HvB : In v B) by (eapply class_reach; eassumption).
      apply (HM B x v HB Hst (part_lt n _ B v HP HB HvB)); exact HvB.
    + exists d. split; [exact Hd|]. split; [|intros H; contradiction]. intros _ y Hy. eapply period_of_mutual; [|exact Hper].
      apply (HM B x y HB Hst (part_lt n _ B y HP HB Hy)); exact Hy.
  - exists 1%Z. split; [reflexivity|]. split; [intros H; apply HC in H; discriminate|reflexivity].
Qed.
End One.

(* ---------- the assignment loop ---------- *)
Lemma names_eqb_eq a b : names_eqb a b = true <-> a = b.
Proof. unfold names_eqb. destruct (list_eq_dec string_dec a b); split; congruence. Qed.
Lemma index_of_nodup (l : list (list string)) k d : NoDup l -> k < length l -> index_of names_eqb (nth k l d) l = Some k.
Proof.
  intros HN Hk. destruct (index_of names_eqb (nth k l d) l) as [i|] eqn:Ei.
  - f_equal. apply index_of_Some in Ei; [|apply names_eqb_eq]. destruct Ei as [Hi _].
    assert (Hil : i < length l) by (apply nth_error_Some; rewrite Hi; discriminate).
    apply (nth_error_nth _ _ d) in Hi. apply (NoDup_nth l d); auto.
  - apply index_of_None in Ei; [|apply names_eqb_eq]. exfalso. apply Ei. apply nth_In; exact Hk.
Qed.

Section Loop.
Context {A : Type} (key : A -> list string) (val : A -> res Z) (vv : A -> Z) (indices : list (list string)).
Hypothesis (HN : NoDup indices).
Definition assign_step := fun (acc : res (list Z)) (scc : A) =>
    bind acc (fun periods =>
    match index_of names_eqb (key scc) indices with
    | None => Err ValueErr
    | Some index => bind (val scc) (fun v => Ok (set_nth periods index v))
    end).
Lemma assign_loop l : forall per, length per = length indices ->
  (forall a, In a l -> val a = Ok (vv a)) -> (forall a, In a l -> In (key a) indices) -> NoDup (map key l) ->
  exists per', fold_left assign_step l (Ok per) = Ok per' /\ length per' = length indices /\
    (forall a k, In a l -> k < length indices -> nth k indices [] = key a -> nth k per' 0%Z = vv a) /\
    (forall k, k < length indices -> ~ In (nth k indices []) (map key l) -> nth k per' 0%Z = nth k per 0%Z).
Proof.
  induction l as [|a l IH]; intros per HL Hv Hk Hd.
  - exists per. repeat split; [exact HL|intros a k []].
  - simpl in Hd. inversion Hd as [|? ? Hna Hd']; subst.
    destruct (In_nth _ _ [] (Hk a (or_introl eq_refl))) as (i & Hi & Hki).
    cbn [fold_left]. unfold assign_step at 2. cbn [bind]. rewrite <- Hki, (index_of_nodup indices i [] HN Hi), (Hv a (or_introl eq_refl)). cbn [bind].
    destruct (IH (set_nth per i (vv a))) as (per' & Hf & HL' & H1 & H2).
    + rewrite length_set_nth. exact HL.
    + intros; apply Hv; right; assumption.
    + intros; apply Hk; right; assumption.
    + exact Hd'.
    + exists per'. split; [exact Hf|]. split; [exact HL'|]. split.
      * intros b k [<-|Hb] Hkl Hkk; [|apply (H1 b k Hb Hkl Hkk)].
        assert (k = i) by (apply (NoDup_nth indices []); auto; congruence). subst k.
        rewrite H2; [|exact Hi|rewrite Hki; exact Hna]. rewrite nth_set_nth by lia. rewrite Nat.eqb_refl. reflexivity.
      * intros k Hkl Hnk. rewrite H2; [|exact Hkl|intros C; apply Hnk; right; exact C].
        rewrite nth_set_nth by lia. destruct (Nat.eqb_spec k i) as [->|]; [|reflexivity]. exfalso. apply Hnk. left. symmetry; exact Hki.
Qed.
End Loop.

(* ---------- sorting strings ---------- *)
Lemma insert_str_perm x l : Permutation (x :: l) (insert_str x l).
Proof. induction l as [|y l IH]; simpl; [constructor; constructor|]. destruct (str_leb x y); [reflexivity|]. rewrite perm_swap. constructor. exact IH. Qed.
Lemma sort_str_perm l : Permutation l (sort_str l).
Proof. induction l as [|x l IH]; simpl; [constructor|]. rewrite <- insert_str_perm. constructor; exact IH. Qed.
Lemma insert_sclass_perm x l : Permutation (x :: l) (insert_sclass x l).
Proof. induction l as [|y l IH]; simpl; [constructor; constructor|]. destruct (sclass_leb x y); [reflexivity|]. rewrite perm_swap. constructor. exact IH. Qed.
Lemma sort_sclasses_perm l : Permutation l (sort_sclasses l).
Proof. induction l as [|x l IH]; simpl; [constructor|]. rewrite <- insert_sclass_perm. constructor; exact IH. Qed.

Lemma named_inj n names B B' : length names = n -> NoDup names -> (forall x, In x B -> x < n) -> (forall x, In x B' -> x < n) ->
  Permutation (named names B) (named names B') -> forall x, In x B -> In x B'.
Proof.
  intros HL HN HB HB' HP x Hx. assert (H : In (nth x names ""%string) (named names B')).
  { eapply Permutation_in; [exact HP|]. unfold named. apply in_map_iff. exists x. split; [reflexivity|exact Hx]. }
  unfold named in H. apply in_map_iff in H. destruct H as (y & Hy & Hin). apply (NoDup_nth names ""%string) in Hy; [subst; exact Hin|exact HN| |]; rewrite HL; auto.
Qed.

Lemma calculate_periods_gen n p names o : wf n n p -> length names = n -> NoDup names -> nx_ok n p o ->
  exists per, calculate_periods p names o = Ok per /\ length per = length (nx_comps o) /\
    let indices := sort_sclasses (map (fun scc => sort_str (named names scc)) (nx_comps o)) in
    forall B k d, In B (nx_comps o) -> k < length indices -> nth k indices [] = sort_str (named names B) -> scc_period p o B = Ok d -> nth k per 0%Z = d.
Proof.
  intros Hp HL HN HO. set (key := fun scc => sort_str (named names scc)). set (indices := sort_sclasses (map key (nx_comps o))).
  pose proof HO as [[HP HM] _].
  assert (Hkey : NoDup (map key (nx_comps o))).
  { pose proof (part_nodup n _ HP) as HND. apply NoDup_map_inj; [|exact HND]. intros B B' HB HB' He. unfold key in He.
    assert (HPm : Permutation (named names B) (named names B')). { rewrite (sort_str_perm (named names B)), (sort_str_perm (named names B')), He. reflexivity. }
    pose proof (hd_in B (proj1 HP B HB)) as Hh. eapply part_disj; [exact HP|exact HB|exact HB'|exact Hh|].
    apply (named_inj n names B B' HL HN (fun z Hz => part_lt n _ B z HP HB Hz) (fun z Hz => part_lt n _ B' z HP HB' Hz) HPm _ Hh). }
  assert (HIN : NoDup indices) by (eapply Permutation_NoDup; [apply sort_sclasses_perm|exact Hkey]).
  set (vv := fun B => match scc_period p o B with Ok d => d | Err _ => 0%Z end).
  destruct (assign_loop key (scc_period p o) vv indices HIN (nx_comps o) (repeat 0%Z (length indices))) as (per & Hf & HLp & H1 & _).
  - apply repeat_length.
  - intros B HB. unfold vv. destruct (scc_period_spec n p o Hp HO B HB) as (d & Hd & _). rewrite Hd. reflexivity.
  - intros B HB. eapply Permutation_in; [apply sort_sclasses_perm|]. apply in_map; exact HB.
  - exact Hkey.
  - exists per. split; [exact Hf|]. split.
    + rewrite HLp. unfold indices. rewrite <- (Permutation_length (sort_sclasses_perm _)), map_length. reflexivity.
    + cbv zeta. intros B k d HB Hk He Hd. rewrite (H1 B k HB Hk He). unfold vv. rewrite Hd. reflexivity.
Qed.

(* ---------- irreducible chains ---------- *)
Lemma irreducible_single n p comps : 0 < n -> wf n n p -> scc_enum n (edge p) comps -> irreducible n (edge p) -> exists B, comps = [B] /\ forall x, In x B <-> x < n.
Proof.
  intros Hn Hp HE HI. destruct HE as [HP HM]. destruct (part_cover n _ 0 HP Hn) as (B & HB & H0).
  assert (HA : forall B', In B' comps -> B' = B).
  { intros B' HB'. pose proof (hd_in B' (proj1 HP B' HB')) as HNE. pose proof (part_lt n _ B' _ HP HB' HNE) as Hh.
    eapply part_disj; [exact HP|exact HB'|exact HB|exact HNE|]. apply (HM B 0 _ HB H0 Hh). split; apply HI; assumption. }
  pose proof (part_nodup n _ HP) as HN. destruct comps as [|A [|A' l]]; [destruct HB| |].
  - exists A. split; [reflexivity|]. intros x. destruct HP as (_ & _ & HC). specialize (HC x). simpl in HC. rewrite app_nil_r in HC. exact HC.
  - exfalso. inversion HN as [|? ? HnA _]; subst. apply HnA. rewrite (HA A), <- (HA A'); [left; reflexivity|right; left; reflexivity|left; reflexivity].
Qed.
Lemma irreducible_periods n p names o : 0 < n -> wf n n p -> length names = n -> NoDup names -> nx_ok n p o -> irreducible n (edge p) ->
  exists d, calculate_periods p names o = Ok [d] /\ forall x, x < n -> period_of n (edge p) x d.
Proof.
  intros Hn Hp HL HN HO HI. destruct (irreducible_single n p (nx_comps o) Hn Hp (proj1 HO) HI) as (B & HB & HBn).
  destruct (calculate_periods_gen n p names o Hp HL HN HO) as (per & Hper & Hlen & Hk).
  assert (HBin : In B (nx_comps o)) by (rewrite HB; left; reflexivity).
  destruct (scc_period_spec n p o Hp HO B HBin) as (d & Hd & Hd1 & _).
  rewrite HB in Hlen, Hk. simpl in Hlen. destruct per as [|z [|]]; simpl in Hlen; try lia.
  specialize (Hk B 0 d (or_introl eq_refl)). simpl in Hk. specialize (Hk ltac:(lia) eq_refl Hd). subst z.
  exists d. split; [exact Hper|]. intros x Hx. apply Hd1; [|apply HBn; exact Hx]. intros i j Hi Hj He. apply HBn; exact Hj.
Qed.
Lemma period_irreducible n p names o nxa : 2 <= n -> stochastic n p -> length names = n -> NoDup names -> nx_ok n p o -> irreducible n (edge p) ->
  exists d, period p names o nxa = Ok d /\ (1 <= d)%Z /\ (forall x, x < n -> period_of n (edge p) x d) /\
    is_aperiodic p names o nxa = Ok (Z.eqb d 1).
Proof.
  intros Hn HS HL HN HO HI. pose proof HS as (Hp & _ & _). assert (H0 : 0 < n) by lia.
  destruct (irreducible_periods n p names o H0 Hp HL HN HO HI) as (d & Hd & Hper).
  assert (HIr : is_irreducible (nx_comps o) = true) by (apply (is_irreducible_spec n p); [exact H0|exact Hp|apply HO|exact HI]).
  assert (Hap : is_aperiodic p names o nxa = Ok (Z.eqb d 1)) by (unfold is_aperiodic; rewrite Hd; cbn [bind]; rewrite HIr; reflexivity).
  assert (Hpos : (1 <= d)%Z).
  { destruct (Hper 0 H0) as (Hnn & Hdiv & _). destruct (stochastic_total n p HS 0 H0) as (j & Hj & He). destruct (HI j 0 Hj H0) as [k Hk].
    assert (W : walk n (edge p) (S k) 0 0) by (econstructor; eassumption). apply Hdiv in W. destruct (Z.eq_dec d 0) as [->|]; [|lia].
    apply Z.divide_0_l in W. lia. }
  exists d. split; [|split; [exact Hpos|split; [exact Hper|exact Hap]]].
  unfold period. rewrite Hap. cbn [bind]. destruct (Z.eqb_spec d 1) as [->|]; [reflexivity|]. rewrite Hd. cbn [bind]. rewrite HIr. reflexivity.
Qed.

(* ---------- C37 ---------- *)
Section Asc.
Context (n : nat) (names : list string).
Hypothesis (HA : names_ascending n names).
Let nm i := nth i names ""%string.
Lemma asc_leb i j : i < n -> j < n -> str_leb (nm i) (nm j) = Nat.leb i j.
Proof.
  intros Hi Hj. unfold str_leb, nm. destruct (Nat.lt_trichotomy i j) as [L|[->|L]].
  - rewrite (HA i j L Hj). symmetry. apply Nat.leb_le. lia.
  - rewrite Nat.leb_refl. destruct (String.compare _ _) eqn:Ec; try reflexivity.
    pose proof Ec as Ec2. rewrite String.compare_antisym, Ec in Ec2. discriminate.
  - rewrite String.compare_antisym, (HA j i L Hi). simpl. symmetry. apply Nat.leb_gt. lia.
Qed.
Lemma asc_sort B : (forall x, In x B -> x < n) -> sort_str (map nm B) = map nm (sort_nat B).
Proof.
  induction B as [|x B IH]; simpl; intros H; [reflexivity|]. rewrite IH by (intros; apply H; right; assumption).
  assert (Hs : forall y, In y (sort_nat B) -> y < n) by (intros y Hy; apply H; right; apply (proj1 (in_sort y B)); exact Hy).
  assert (Hx : x < n) by (apply H; left; reflexivity). clear IH H. revert Hs. generalize (sort_nat B). intros l. induction l as [|y l IHl]; simpl; intros Hs; [reflexivity|].
  rewrite asc_leb by (try assumption; apply Hs; left; reflexivity). destruct (Nat.leb x y); [reflexivity|]. simpl. f_equal. apply IHl. intros; apply Hs; right; assumption.
Qed.
Lemma asc_sort_classes cs : (forall B, In B cs -> B <> [] /\ forall x, In x B -> x < n) -> sort_sclasses (map (map nm) cs) = map (map nm) (sort_classes cs).
Proof.
  induction cs as [|B cs IH]; simpl; intros H; [reflexivity|]. rewrite IH by (intros; apply H; right; assumption).
  assert (Hs : forall C, In C (sort_classes cs) -> C <> [] /\ forall x, In x C -> x < n) by (intros C HC; apply H; right; apply (proj1 (in_sort_classes C cs)); exact HC).
  assert (HB : B <> [] /\ forall x, In x B -> x < n) by (apply H; left; reflexivity). clear IH H. revert Hs. generalize (sort_classes cs). intros l. induction l as [|C l IHl]; simpl; intros Hs; [reflexivity|].
  assert (Hle : sclass_leb (map nm B) (map nm C) = class_leb B C).
  { unfold sclass_leb, class_leb. rewrite !map_length. f_equal. f_equal. destruct (Hs C (or_introl eq_refl)) as [HC1 HC2]. destruct HB as [HB1 HB2].
    destruct B as [|b B]; [congruence|]. destruct C as [|c C]; [congruence|]. simpl. apply asc_leb; [apply HB2; left; reflexivity|apply HC2; left; reflexivity]. }
  rewrite Hle. destruct (class_leb B C); [reflexivity|]. simpl. f_equal. apply IHl. intros; apply Hs; right; assumption.
Qed.
End Asc.

Lemma periods_ascending n p names o : wf n n p -> length names = n -> NoDup names -> names_ascending n names -> nx_ok n p o ->
  exists per, calculate_periods p names o = Ok per /\ length per = length (communicating_indices (nx_comps o)) /\
    forall k, k < length per -> let B := nth k (communicating_indices (nx_comps o)) [] in
      (closed n (edge p) B -> forall x, In x B -> period_of n (edge p) x (nth k per 0%Z)) /\ (~ closed n (edge p) B -> nth k per 0%Z = 1%Z).
Proof.
  intros Hp HL HN HA HO. destruct (calculate_periods_gen n p names o Hp HL HN HO) as (per & Hper & Hlen & Hk).
  pose proof HO as [[HP HM] _].
  assert (Hlc : length (communicating_indices (nx_comps o)) = length (nx_comps o)).
  { unfold communicating_indices. rewrite <- (Permutation_length (sort_classes_perm _)). unfold classes_indices. apply map_length. }
  assert (Hind : sort_sclasses (map (fun scc => sort_str (named names scc)) (nx_comps o)) = map (map (fun i => nth i names ""%string)) (communicating_indices (nx_comps o))).
  { unfold communicating_indices. rewrite <- (asc_sort_classes n names HA).
    - f_equal. unfold classes_indices. rewrite map_map. apply map_ext_in. intros B HB. unfold named. apply (asc_sort n names HA). intros x Hx. eapply part_lt; eassumption.
    - intros B HB. apply in_map_iff in HB. destruct HB as (B' & <- & HB'). split.
      + intros C. apply (proj1 HP B' HB'). pose proof (sort_perm B') as Hs. rewrite C in Hs. apply Permutation_sym, Permutation_nil in Hs. exact Hs.
      + intros x Hx. apply (proj1 (in_sort x B')) in Hx. eapply part_lt; eassumption. }
  exists per. split; [exact Hper|]. split; [lia|]. intros k Hkl. cbv zeta.
  set (B := nth k (communicating_indices (nx_comps o)) []).
  assert (HBc : In B (communicating_indices (nx_comps o))) by (apply nth_In; lia).
  apply (proj1 (in_communicating B (nx_comps o))) in HBc. apply in_map_iff in HBc. destruct HBc as (B' & HBB & HB').
  destruct (scc_period_spec n p o Hp HO B' HB') as (d & Hd & Hd1 & Hd2).
  assert (Hnk : nth k per 0%Z = d).
  { apply (Hk B' k d HB'); [rewrite Hind, map_length; lia| |exact Hd]. rewrite Hind.
    change (@nil string) with (map (fun i => nth i names ""%string) []). rewrite map_nth. fold B. rewrite <- HBB.
    unfold named. symmetry. apply (asc_sort n names HA). intros x Hx. eapply part_lt; eassumption. }
  assert (Hcl : closed n (edge p) B <-> closed n (edge p) B') by (apply closed_perm; intros x; rewrite <- HBB; apply in_sort).
  rewrite Hnk. split.
  - intros HC x Hx. apply Hd1; [apply Hcl; exact HC|]. rewrite <- HBB in Hx. apply (proj1 (in_sort x B')); exact Hx.
  - intros HC. apply Hd2. intros C. apply HC, Hcl, C.
Qed.
(** General form: periods are listed in the order of the classes sorted by name. *)
Lemma periods_by_name n p names o : wf n n p -> length names = n -> NoDup names -> nx_ok n p o ->
  exists per, calculate_periods p names o = Ok per /\ length per = length (nx_comps o) /\
    forall B, In B (nx_comps o) -> exists k, k < length per /\
      nth k (sort_sclasses (map (fun scc => sort_str (named names scc)) (nx_comps o))) [] = sort_str (named names B) /\
      (closed n (edge p) B -> forall x, In x B -> period_of n (edge p) x (nth k per 0%Z)) /\ (~ closed n (edge p) B -> nth k per 0%Z = 1%Z).
Proof.
  intros Hp HL HN HO. destruct (calculate_periods_gen n p names o Hp HL HN HO) as (per & Hper & Hlen & Hk).
  exists per. split; [exact Hper|]. split; [exact Hlen|]. intros B HB.
  set (ind := sort_sclasses (map (fun scc => sort_str (named names scc)) (nx_comps o))) in *.
  assert (Hin : In (sort_str (named names B)) ind) by (eapply Permutation_in; [apply sort_sclasses_perm|]; apply (in_map (fun scc => sort_str (named names scc))); exact HB).
  destruct (In_nth _ _ [] Hin) as (k & Hkl & He).
  assert (Hli : length ind = length (nx_comps o)) by (unfold ind; rewrite <- (Permutation_length (sort_sclasses_perm _)), map_length; reflexivity).
  destruct (scc_period_spec n p o Hp HO B HB) as (d & Hd & Hd1 & Hd2).
  exists k. split; [lia|]. split; [exact He|]. rewrite (Hk B k d HB Hkl He Hd). split; assumption.
Qed.
