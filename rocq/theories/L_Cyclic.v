(** L_Cyclic: proofs about cyclic classes. *)
From Coq Require Import Permutation Sorted.
From Verif Require Export L_Period2.

Section Cyc.
Context (n : nat) (p : mat).
Hypothesis (Hn : 0 < n) (Hp : wf n n p) (HI : irreducible n (edge p)).
Let E := edge p.
Notation lvl v y := (nth y v 0%Z).

Record cinv (w : list nat) (v : list Z) (t : list nat) (d : Z) : Prop := {
  ci_len : length v = n;
  ci_nodup : NoDup (w ++ t);
  ci_lt : forall y, In y (w ++ t) -> y < n;
  ci_zero : In 0 (w ++ t);
  ci_one : lvl v 0 = 1%Z;
  ci_walk : forall y, In y (w ++ t) -> exists k, walk n E k 0 y /\ lvl v y = (1 + Z.of_nat k)%Z;
  ci_sound : forall e, divides_all n E 0 e -> (e | d)%Z;
  ci_pos : (0 <= d)%Z
}.
Definition cdone (w t : list nat) (v : list Z) (d : Z) (u j : nat) : Prop := E u j -> In j (w ++ t) /\ (d | lvl v u + 1 - lvl v j)%Z.

Lemma hback v : reach n E 0 v -> reach n E v 0.
Proof. intros H. apply HI; [apply (reach_lt _ _ _ _ H)|exact Hn]. Qed.

Lemma cyc_visit_inv w i v t d j : cinv w v t d -> In i w -> j < n ->
  let '(v', t', d') := cyc_visit p w i (lvl v i + 1) (v, t, d) j in
  cinv w v' t' d' /\ cdone w t' v' d' i j /\
  (forall y, In y (w ++ t) -> In y (w ++ t') /\ lvl v' y = lvl v y) /\ (d' | d)%Z.
Proof.
  intros H Hi Hj. destruct H as [HL HN HB HZ H1 HW HS HP]. unfold cyc_visit. fold (edgeb p i j).
  destruct (edgeb p i j) eqn:Ee.
  - apply edgeb_spec in Ee. destruct (HW i) as (ki & Hwi & Hvi); [apply in_app_iff; left; exact Hi|].
    destruct (memn j (w ++ t)) eqn:Em.
    + apply memn_In in Em. destruct (HW j Em) as (kj & Hwj & Hvj). split; [constructor; try assumption|split; [|split]].
      * intros e He. apply Z.gcd_greatest; [apply HS; exact He|].
        pose proof (sound_edge n E 0 Hn hback e i j ki kj He Hwi Hj Ee Hwj) as Hd. replace (lvl v i + 1 - lvl v j)%Z with (Z.of_nat ki + 1 - Z.of_nat kj)%Z by lia. exact Hd.
      * apply Z.gcd_nonneg.
      * intros _. split; [exact Em|]. apply Z.gcd_divide_r.
      * intros y Hy. split; [exact Hy|reflexivity].
      * apply Z.gcd_divide_l.
    + apply memn_false in Em.
      assert (Hl : forall y, lvl (set_nth v j (lvl v i + 1)%Z) y = if Nat.eqb y j then (lvl v i + 1)%Z else lvl v y) by (intros y; apply nth_set_nth; lia).
      assert (Hkeep : forall y, In y (w ++ t) -> lvl (set_nth v j (lvl v i + 1)%Z) y = lvl v y).
      { intros y Hy. rewrite Hl. destruct (Nat.eqb_spec y j) as [->|]; [contradiction|reflexivity]. }
      assert (Hij : i <> j) by (intros ->; apply Em; apply in_app_iff; left; exact Hi).
      split; [constructor|split; [|split]].
      * rewrite length_set_nth; exact HL.
      * rewrite app_assoc. apply Permutation_NoDup with (l := j :: (w ++ t)); [apply Permutation_cons_append|]. constructor; assumption.
      * intros y Hy. rewrite app_assoc in Hy. apply in_app_iff in Hy. destruct Hy as [Hy|[<-|[]]]; [apply HB; exact Hy|exact Hj].
      * rewrite app_assoc. apply in_app_iff. left; exact HZ.
      * rewrite Hkeep by exact HZ. exact H1.
      * intros y Hy. rewrite app_assoc in Hy. apply in_app_iff in Hy. destruct Hy as [Hy|[<-|[]]].
        -- destruct (HW y Hy) as (k & A & B). exists k. split; [exact A|]. rewrite Hkeep by exact Hy. exact B.
        -- exists (ki + 1). split; [|rewrite Hl, Nat.eqb_refl; lia]. eapply walk_app; [exact Hwi|]. econstructor; [apply (walk_bounds _ _ _ _ _ Hwi)|exact Hj|exact Ee|constructor; exact Hj].
      * exact HS.
      * exact HP.
      * intros _. split; [rewrite app_assoc; apply in_app_iff; right; left; reflexivity|].
        rewrite !Hl, Nat.eqb_refl. destruct (Nat.eqb_spec i j); [contradiction|]. rewrite Z.sub_diag. apply Z.divide_0_r.
      * intros y Hy. split; [rewrite app_assoc; apply in_app_iff; left; exact Hy|apply Hkeep; exact Hy].
      * apply Z.divide_refl.
  - split; [constructor; assumption|split; [|split; [|apply Z.divide_refl]]].
    + intros He. apply edgeb_spec in He. congruence.
    + intros y Hy. split; [exact Hy|reflexivity].
Qed.
Lemma cdone_mono w t v d t' v' d' u j : cdone w t v d u j -> In u (w ++ t) ->
  (forall y, In y (w ++ t) -> In y (w ++ t') /\ lvl v' y = lvl v y) -> (d' | d)%Z -> cdone w t' v' d' u j.
Proof.
  intros H Hu Hk Hd He. destruct (H He) as [Hj Hdv]. split; [apply Hk; exact Hj|]. rewrite (proj2 (Hk u Hu)), (proj2 (Hk j Hj)). etransitivity; eassumption.
Qed.
Lemma cyc_row_inv w i js : forall v t d, cinv w v t d -> In i w -> (forall j, In j js -> j < n) ->
  forall vip, vip = (lvl v i + 1)%Z ->
  let '(v', t', d') := fold_left (cyc_visit p w i vip) js (v, t, d) in
  cinv w v' t' d' /\ (forall j, In j js -> cdone w t' v' d' i j) /\
  (forall y, In y (w ++ t) -> In y (w ++ t') /\ lvl v' y = lvl v y) /\ (d' | d)%Z.
Proof.
  induction js as [|j js IH]; intros v t d H Hi Hjs vip Hv; cbn [fold_left].
  - split; [exact H|]. split; [intros j []|]. split; [intros y Hy; split; [exact Hy|reflexivity]|apply Z.divide_refl].
  - pose proof (cyc_visit_inv w i v t d j H Hi (Hjs j (or_introl eq_refl))) as HV. rewrite <- Hv in HV.
    destruct (cyc_visit p w i vip (v, t, d) j) as [[v1 t1] d1] eqn:E1. destruct HV as (H1 & Hd1 & Hk1 & Hdd1).
    assert (Hiw : In i (w ++ t)) by (apply in_app_iff; left; exact Hi).
    assert (Hv1 : vip = (lvl v1 i + 1)%Z) by (rewrite (proj2 (Hk1 i Hiw)); exact Hv).
    specialize (IH v1 t1 d1 H1 Hi (fun j Hj => Hjs j (or_intror Hj)) vip Hv1).
    destruct (fold_left (cyc_visit p w i vip) js (v1, t1, d1)) as [[v2 t2] d2]. destruct IH as (H2 & Hd2 & Hk2 & Hdd2).
    split; [exact H2|]. split; [|split].
    + intros j0 [<-|Hj0]; [|apply Hd2; exact Hj0]. eapply cdone_mono; [exact Hd1| |exact Hk2|exact Hdd2]. apply in_app_iff; left; exact Hi.
    + intros y Hy. destruct (Hk1 y Hy) as [A B]. destruct (Hk2 y A) as [C D]. split; [exact C|congruence].
    + etransitivity; eassumption.
Qed.
Lemma cyc_loop_spec fuel D : divides_all n E 0 D -> (1 < D)%Z -> forall w v t d, cinv w v t d -> (forall u j, In u w -> j < n -> cdone w t v d u j) ->
  n < fuel + length w ->
  exists v' d' w', cyc_loop fuel p w v t d = Ok (v', d') /\ cinv w' v' [] d' /\ (forall u j, In u w' -> j < n -> cdone w' [] v' d' u j).
Proof.
  intros HD HD1. induction fuel as [|fuel IH]; intros w v t d H Hdone Hf; (destruct t as [|i t']; [exists v, d, w; split; [reflexivity|split; assumption]|]).
  - exfalso. assert (HL : length (w ++ i :: t') <= n).
    { rewrite <- (seq_length n 0). apply NoDup_incl_length; [apply (ci_nodup _ _ _ _ H)|]. intros y Hy. apply in_seq. pose proof (ci_lt _ _ _ _ H y Hy). lia. }
    rewrite app_length in HL. simpl in HL. lia.
  - cbn [cyc_loop]. destruct (Z.eqb_spec d 1) as [->|Hd1].
    + exfalso. pose proof (ci_sound _ _ _ _ H D HD) as Hdv. apply Z.divide_1_r_nonneg in Hdv; lia.
    + assert (Hr : nrows p = n) by apply Hp. rewrite Hr.
      assert (Hsame : forall y, In y (w ++ i :: t') <-> In y ((w ++ [i]) ++ t')) by (intros y; rewrite <- app_assoc; reflexivity).
      assert (H1 : cinv (w ++ [i]) v t' d).
      { destruct H as [HL HN HB HZ H1 HW HS HP]. constructor; try assumption; rewrite <- app_assoc; assumption. }
      pose proof (cyc_row_inv (w ++ [i]) i (seq 0 n) v t' d H1 ltac:(apply in_app_iff; right; left; reflexivity) ltac:(intros j Hj; apply in_seq in Hj; lia) (lvl v i + 1)%Z eq_refl) as HR.
      destruct (fold_left (cyc_visit p (w ++ [i]) i (lvl v i + 1)) (seq 0 n) (v, t', d)) as [[v2 t2] d2]. destruct HR as (H2 & Hd2 & Hk2 & Hdd2).
      apply IH; [exact H2| |rewrite app_length; simpl; lia].
      intros u j Hu Hj. apply in_app_iff in Hu. destruct Hu as [Hu|[<-|[]]].
      * specialize (Hdone u j Hu Hj). apply (cdone_mono (w ++ [i]) t' v d); [| |exact Hk2|exact Hdd2].
        -- intros He. destruct (Hdone He) as [A B]. split; [apply Hsame; exact A|exact B].
        -- apply in_app_iff; left; apply in_app_iff; left; exact Hu.
      * apply Hd2. apply in_seq. lia.
Qed.

Lemma insert_z_in x y l : In y (insert_z x l) <-> y = x \/ In y l.
Proof.
  induction l as [|z l IH]; simpl; [intuition congruence|]. destruct (Z.ltb_spec x z); [simpl; intuition congruence|]. destruct (Z.eqb_spec x z) as [->|]; simpl; [intuition congruence|]. rewrite IH. intuition congruence.
Qed.
Lemma unique_z_in y l : In y (unique_z l) <-> In y l.
Proof. induction l as [|z l IH]; simpl; [reflexivity|]. rewrite insert_z_in, IH. intuition congruence. Qed.
Lemma insert_z_sorted x l : StronglySorted Z.lt l -> StronglySorted Z.lt (insert_z x l).
Proof.
  induction 1 as [|z l Hl IH Hz]; simpl; [constructor; constructor|]. destruct (Z.ltb_spec x z).
  - constructor; [constructor; assumption|]. constructor; [assumption|]. eapply Forall_impl; [|exact Hz]. intros; lia.
  - destruct (Z.eqb_spec x z) as [->|]; [constructor; assumption|]. constructor; [exact IH|]. apply Forall_forall. intros y Hy. apply insert_z_in in Hy. destruct Hy as [->|Hy]; [lia|]. rewrite Forall_forall in Hz. apply Hz; exact Hy.
Qed.
Lemma unique_z_sorted l : StronglySorted Z.lt (unique_z l).
Proof. induction l; simpl; [constructor|apply insert_z_sorted; assumption]. Qed.
Lemma zseq_sorted m a : StronglySorted Z.lt (map Z.of_nat (seq a m)).
Proof. revert a. induction m; intros a; simpl; constructor; [apply IHm|]. apply Forall_forall. intros y Hy. apply in_map_iff in Hy. destruct Hy as (b & <- & Hb). apply in_seq in Hb. lia. Qed.

Lemma find_cyclic_spec D : period_of n E 0 D -> (2 <= D)%Z -> total n E ->
  exists cyc, find_cyclic_classes p = Ok cyc /\ length cyc = Z.to_nat D /\ partition_of n cyc /\ (forall B, In B cyc -> StronglySorted lt B) /\
    forall k i j, k < length cyc -> In i (nth k cyc []) -> j < n -> E i j -> In j (nth ((k + 1) mod length cyc) cyc []).
Proof.
  intros (HD0 & HDall & HDmax) HD2 HT. assert (Hr : nrows p = n) by apply Hp.
  set (v0 := set_nth (repeat 0%Z n) 0 1%Z).
  assert (Hv0 : forall y, lvl v0 y = if Nat.eqb y 0 then 1%Z else 0%Z).
  { intros y. unfold v0. rewrite nth_set_nth by (rewrite repeat_length; exact Hn). destruct (Nat.eqb y 0); [reflexivity|]. apply nth_repeat. }
  destruct (cyc_loop_spec (n + 1) D HDall ltac:(lia) [] v0 [0] 0%Z) as (v & d & w & Hrun & HC & Hdone).
  - constructor; simpl.
    + unfold v0. rewrite length_set_nth, repeat_length. reflexivity.
    + constructor; [intros []|constructor].
    + intros y [<-|[]]. exact Hn.
    + left; reflexivity.
    + rewrite Hv0. reflexivity.
    + intros y [<-|[]]. exists 0. split; [constructor; exact Hn|rewrite Hv0; reflexivity].
    + intros e _. apply Z.divide_0_r.
    + lia.
  - intros u j [].
  - simpl. lia.
  - assert (Hw : forall y, y < n -> In y w).
    { intros y Hy. destruct (HI 0 y Hn Hy) as [k Hk]. assert (H0 : In 0 w) by (pose proof (ci_zero _ _ _ _ HC) as Hz; rewrite app_nil_r in Hz; exact Hz).
      assert (G : forall k a b, walk n E k a b -> In a w -> In b w).
      { clear k Hk. intros k a b Hk. induction Hk as [i Hi|k i j l Hi Hj He Hwk IHk]; intros Ha; [exact Ha|]. apply IHk. destruct (Hdone i j Ha Hj He) as [A _]. rewrite app_nil_r in A. exact A. }
      exact (G k 0 y Hk H0). }
    assert (Hedge : forall i j, i < n -> j < n -> E i j -> (d | lvl v i + 1 - lvl v j)%Z).
    { intros i j Hi Hj He. apply (Hdone i j (Hw i Hi) Hj He). }
    assert (Hd : d = D).
    { apply Z.divide_antisym_nonneg; [apply (ci_pos _ _ _ _ HC)|exact HD0| |apply (ci_sound _ _ _ _ HC); exact HDall].
      apply HDmax. intros k Hk.
      assert (G : forall k a b, walk n E k a b -> (d | lvl v a + Z.of_nat k - lvl v b)%Z).
      { intros k' a b Hwk. induction Hwk as [i Hi|k' i j l Hi Hj He Hwk IHk].
        - replace (lvl v i + Z.of_nat 0 - lvl v i)%Z with 0%Z by lia. apply Z.divide_0_r.
        - replace (lvl v i + Z.of_nat (S k') - lvl v l)%Z with ((lvl v i + 1 - lvl v j) + (lvl v j + Z.of_nat k' - lvl v l))%Z by lia. apply Z.divide_add_r; [apply Hedge; assumption|exact IHk]. }
      pose proof (G k 0 0 Hk) as Hg. replace (lvl v 0 + Z.of_nat k - lvl v 0)%Z with (Z.of_nat k) in Hg by lia. exact Hg. }
    subst d.
    unfold find_cyclic_classes. rewrite Hr. fold v0. rewrite Hrun. cbn [bind fst snd].
    assert (HD0' : (D =? 0)%Z = false) by (apply Z.eqb_neq; lia). rewrite HD0'.
    set (v' := map (fun z => (z mod D)%Z) v).
    assert (Hv' : forall i, i < n -> lvl v' i = (lvl v i mod D)%Z).
    { intros i Hi. unfold v'. rewrite nth_indep with (d' := (0 mod D)%Z) by (rewrite map_length, (ci_len _ _ _ _ HC); exact Hi). apply (map_nth (fun z => (z mod D)%Z)). }
    assert (Hrange : forall i, i < n -> (0 <= lvl v' i < D)%Z) by (intros i Hi; rewrite Hv' by exact Hi; apply Z.mod_pos_bound; lia).
    assert (Hstep : forall i j, i < n -> j < n -> E i j -> lvl v' j = ((lvl v' i + 1) mod D)%Z).
    { intros i j Hi Hj He. rewrite !Hv' by assumption. rewrite Zplus_mod_idemp_l. destruct (Hedge i j Hi Hj He) as [q Hq].
      replace (lvl v i + 1)%Z with (lvl v j + q * D)%Z by lia. rewrite Z_mod_plus_full. reflexivity. }
    assert (Hocc : forall m, exists i, i < n /\ lvl v' i = (Z.of_nat m mod D)%Z).
    { intros m. induction m as [|m (i & Hi & Him)].
      - (* residue 0: start from state 0 (residue 1 mod D) and walk D - 1 steps *)
        assert (G : forall k, exists i, i < n /\ lvl v' i = ((1 + Z.of_nat k) mod D)%Z).
        { induction k as [|k (i & Hi & Hik)].
          - exists 0. split; [exact Hn|]. rewrite Hv' by exact Hn. rewrite (ci_one _ _ _ _ HC). f_equal.
          - destruct (HT i Hi) as (j & Hj & He). exists j. split; [exact Hj|]. rewrite (Hstep i j Hi Hj He), Hik, Zplus_mod_idemp_l. f_equal. lia. }
        destruct (G (Z.to_nat (D - 1))) as (i & Hi & Hik). exists i. split; [exact Hi|]. rewrite Hik. rewrite Z2Nat.id by lia. replace (1 + (D - 1))%Z with D by lia. rewrite Z_mod_same_full. symmetry. apply Z.mod_0_l. lia.
      - destruct (HT i Hi) as (j & Hj & He). exists j. split; [exact Hj|]. rewrite (Hstep i j Hi Hj He), Him, Zplus_mod_idemp_l. f_equal. lia. }
    assert (Huniq : unique_z v' = map Z.of_nat (seq 0 (Z.to_nat D))).
    { apply (ssorted_unique Z.lt); [intros; lia|intros; lia|apply unique_z_sorted|apply zseq_sorted|]. intros z. rewrite unique_z_in, in_map_iff. split.
      - intros Hz. apply (In_nth _ _ 0%Z) in Hz. destruct Hz as (i & Hi & Hz). assert (Hin : i < n) by (unfold v' in Hi; rewrite map_length, (ci_len _ _ _ _ HC) in Hi; exact Hi).
        exists (Z.to_nat z). pose proof (Hrange i Hin) as Hb. rewrite Hz in Hb. split; [lia|apply in_seq; lia].
      - intros (k & <- & Hk). apply in_seq in Hk. destruct (Hocc k) as (i & Hi & Hik). rewrite Z.mod_small in Hik by lia. rewrite <- Hik. apply nth_In. unfold v'. rewrite map_length, (ci_len _ _ _ _ HC). exact Hi. }
    rewrite Huniq, map_map. set (cls := fun k => filter (fun i => Z.eqb (lvl v' i) (Z.of_nat k)) (seq 0 n)).
    assert (Hcls : forall k i, In i (cls k) <-> i < n /\ lvl v' i = Z.of_nat k).
    { intros k i. unfold cls. rewrite filter_In, in_seq, Z.eqb_eq. split; intros [A B]; split; try exact B; lia. }
    exists (map cls (seq 0 (Z.to_nat D))).
    assert (Hlen : length (map cls (seq 0 (Z.to_nat D))) = Z.to_nat D) by (rewrite map_length, seq_length; reflexivity).
    assert (Hnth : forall k, k < Z.to_nat D -> nth k (map cls (seq 0 (Z.to_nat D))) [] = cls k) by (intros k Hk; apply (tab_nth (Z.to_nat D) cls [] k Hk)).
    split; [reflexivity|]. split; [exact Hlen|]. split; [split; [|split]|split].
    + intros B HB. apply in_map_iff in HB. destruct HB as (k & <- & Hk). apply in_seq in Hk. destruct (Hocc k) as (i & Hi & Hik). rewrite Z.mod_small in Hik by lia.
      intros C. assert (G : In i []); [|destruct G]. rewrite <- C. apply Hcls. split; [exact Hi|exact Hik].
    + apply NoDup_concat_map; [apply seq_NoDup|intros a _; apply NoDup_filter, seq_NoDup|].
      intros a b y _ _ Ha Hb. apply Hcls in Ha, Hb. lia.
    + intros y. rewrite in_concat. split.
      * intros (B & HB & Hy). apply in_map_iff in HB. destruct HB as (k & <- & Hk). apply Hcls in Hy. apply Hy.
      * intros Hy. pose proof (Hrange y Hy) as Hb. exists (cls (Z.to_nat (lvl v' y))). split; [apply in_map_iff; exists (Z.to_nat (lvl v' y)); split; [reflexivity|apply in_seq; lia]|]. apply Hcls. split; [exact Hy|lia].
    + intros B HB. apply in_map_iff in HB. destruct HB as (k & <- & Hk). unfold cls. pose proof (ssorted_seq 0 n) as Hss. revert Hss. generalize (seq 0 n). intros l Hss.
      induction Hss as [|a l Hl IHl Ha]; simpl; [constructor|]. destruct (Z.eqb (lvl v' a) (Z.of_nat k)); [|exact IHl]. constructor; [exact IHl|]. rewrite Forall_forall in *. intros b Hb. apply filter_In in Hb. apply Ha; apply Hb.
    + rewrite Hlen. intros k i j Hk Hi Hj He. rewrite Hnth in Hi by exact Hk. rewrite Hnth by (apply Nat.mod_upper_bound; lia).
      apply Hcls in Hi. destruct Hi as [Hin Hik]. apply Hcls. split; [exact Hj|]. rewrite (Hstep i j Hin Hj He), Hik. rewrite Nat2Z.inj_mod, Nat2Z.inj_add, Z2Nat.id by lia. reflexivity.
Qed.
End Cyc.

Lemma cyclic_classes_spec n p names o nxa : 2 <= n -> stochastic n p -> length names = n -> NoDup names -> nx_ok n p o -> irreducible n (edge p) ->
  exists d cs, period p names o nxa = Ok d /\ cyclic_classes_indices p names o nxa = Ok cs /\
    length cs = Z.to_nat d /\ partition_of n cs /\ (forall B, In B cs -> StronglySorted lt B) /\ StronglySorted class_before cs /\
    exists cyc, Permutation cs cyc /\
      forall k i j, k < length cyc -> In i (nth k cyc []) -> j < n -> edge p i j -> In j (nth ((k + 1) mod length cyc) cyc []).
Proof.
  intros Hn HS HL HN HO HI. pose proof HS as (Hp & _ & _). assert (H0 : 0 < n) by lia.
  destruct (period_irreducible n p names o nxa Hn HS HL HN HO HI) as (d & Hd & Hd1 & Hper & Hap).
  assert (HIr : is_irreducible (nx_comps o) = true) by (apply (is_irreducible_spec n p); [exact H0|exact Hp|apply HO|exact HI]).
  unfold cyclic_classes_indices. rewrite HIr, Hap. cbn [bind].
  destruct (Z.eqb_spec d 1) as [->|Hne].
  - exists 1%Z, (communicating_indices (nx_comps o)). destruct (communicating_listing n _ (nx_comps o) (proj1 HO)) as ((HP & HM) & HSs & HSb).
    assert (HLen : length (communicating_indices (nx_comps o)) = 1) by (unfold is_irreducible in HIr; apply Nat.eqb_eq in HIr; exact HIr).
    split; [exact Hd|]. split; [reflexivity|]. split; [exact HLen|]. split; [exact HP|]. split; [exact HSs|]. split; [exact HSb|].
    exists (communicating_indices (nx_comps o)). split; [reflexivity|]. rewrite HLen. intros k i j Hk Hi Hj He. replace ((k + 1) mod 1) with 0 by (rewrite Nat.mod_1_r; reflexivity).
    destruct (communicating_indices (nx_comps o)) as [|B [|]]; simpl in HLen; try lia. simpl. destruct HP as (_ & _ & HC). specialize (HC j). simpl in HC. rewrite app_nil_r in HC. apply HC; exact Hj.
  - destruct (find_cyclic_spec n p H0 Hp HI d (Hper 0 H0) ltac:(lia) (stochastic_total n p HS)) as (cyc & Hf & Hlen & HP & HSs & Hcyc).
    rewrite Hf. cbn [bind]. exists d, (sort_classes cyc). split; [exact Hd|]. split; [reflexivity|].
    split; [rewrite <- (Permutation_length (sort_classes_perm cyc)); exact Hlen|]. split; [eapply partition_perm; [apply sort_classes_perm|exact HP]|].
    split; [intros B HB; apply HSs; apply (proj1 (in_sort_classes B cyc)); exact HB|]. split; [apply sort_classes_sorted; eapply part_heads; exact HP|].
    exists cyc. split; [apply Permutation_sym, sort_classes_perm|exact Hcyc].
Qed.
