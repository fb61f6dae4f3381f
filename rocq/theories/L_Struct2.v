(** L_Struct2: proofs about the canonical form, absorbing states, monotonicity
    and walks. *)
From Coq Require Import Permutation Sorted.
From Verif Require Export L_Gen1 L_Gen2 L_Gen3 L_Struct1.

Lemma lsum_perm (l l' : list Qc) : Permutation l l' -> lsum l = lsum l'.
Proof. induction 1; simpl; [reflexivity|rewrite IHPermutation; reflexivity|ring|congruence]. Qed.
Lemma filter_true {A} (l : list A) : filter (fun _ => true) l = l.
Proof. induction l; simpl; congruence. Qed.

(* ---------- C27: canonical form ---------- *)
Lemma ssorted_seq a n : StronglySorted lt (seq a n).
Proof.
  revert a; induction n as [|n IH]; intros a; simpl; constructor; [apply IH|]. apply Forall_forall. intros x Hx. apply in_seq in Hx. lia.
Qed.
Lemma ssorted_app (A B : list nat) : StronglySorted lt A -> StronglySorted lt B -> (forall a b, In a A -> In b B -> a < b) -> StronglySorted lt (A ++ B).
Proof.
  induction 1 as [|x A HA IH Hx]; simpl; intros HB HAB; [exact HB|]. constructor; [apply IH; [exact HB|intros; apply HAB; [right|]; assumption]|].
  rewrite Forall_forall in *. intros y Hy. apply in_app_iff in Hy. destruct Hy as [Hy|Hy]; [apply Hx; exact Hy|apply HAB; [left; reflexivity|exact Hy]].
Qed.
Lemma list_max0_ge l x : In x l -> x <= list_max0 l.
Proof. induction l; simpl; [intros []|]. intros [->|H]; [lia|]. specialize (IHl H). unfold list_max0 in *. lia. Qed.
Lemma list_min0_le l x : In x l -> list_min0 l <= x.
Proof.
  destruct l as [|a l]; [intros []|]. simpl. assert (G : fold_right Nat.min a l <= a /\ forall y, In y l -> fold_right Nat.min a l <= y).
  { induction l as [|b l IH]; simpl; [split; [lia|intros _ []]|]. destruct IH as [I1 I2]. split; [lia|]. intros y [->|Hy]; [lia|]. specialize (I2 y Hy). lia. }
  destruct G as [G1 G2]. intros [->|H]; [exact G1|apply G2; exact H].
Qed.

Section Canon.
Context (n : nat) (p : mat) (comps : list (list nat)).
Hypothesis (Hp : wf n n p) (HE : scc_enum n (edge p) comps).
Let T := transient_states_indices p comps.
Let R := recurrent_states_indices p comps.

Lemma sub_concat_nodup (f : list nat -> bool) parts : NoDup (concat parts) -> NoDup (concat (filter f parts)).
Proof.
  induction parts as [|B parts IH]; simpl; intros H; [constructor|].
  assert (H1 : NoDup (concat parts)) by (clear - H; induction B; simpl in H; [exact H|inversion H; auto]).
  specialize (IH H1). destruct (f B); [|exact IH]. simpl.
  induction B as [|b B IHB]; simpl in *; [exact IH|]. inversion H as [|? ? Hb H']; subst. constructor; [|apply IHB; exact H'].
  intros C. apply Hb. apply in_app_iff in C. apply in_app_iff. destruct C as [C|C]; [left; exact C|right].
  apply in_concat in C. destruct C as (B' & HB' & Hx). apply in_concat. exists B'. split; [apply filter_In in HB'; apply HB'|exact Hx].
Qed.
Lemma concat_sort_perm l : Permutation (concat l) (concat (sort_classes l)).
Proof.
  assert (G : forall a b : list (list nat), Permutation a b -> Permutation (concat a) (concat b)).
  { intros a b H. induction H; simpl; [constructor|apply Permutation_app_head; assumption| |eapply perm_trans; eassumption]. rewrite !app_assoc. apply Permutation_app_tail, Permutation_app_comm. }
  apply G, sort_classes_perm.
Qed.
Lemma R_sorted : StronglySorted lt R.
Proof.
  apply sorted_lt; [|apply sort_sorted]. eapply Permutation_NoDup; [apply sort_perm|]. unfold recurrent_classes_indices.
  eapply Permutation_NoDup; [apply concat_sort_perm|]. apply sub_concat_nodup. destruct (classes_enum n _ comps HE) as [[HP _] _]. apply HP.
Qed.
Lemma map_nth_seq_filter (f : nat -> bool) (cs : list (list nat)) m : length cs = m -> NoDup (concat cs) ->
  NoDup (concat (map (fun k => nth k cs []) (filter f (seq 0 m)))).
Proof.
  intros HL HN. apply NoDup_concat_map; [apply NoDup_filter, seq_NoDup| |].
  - intros a Ha. apply filter_In in Ha. destruct Ha as [Ha _]. apply in_seq in Ha. apply NoDup_concat_block; [exact HN|lia].
  - intros a b x Ha Hb Hxa Hxb. apply filter_In in Ha, Hb. destruct Ha as [Ha _], Hb as [Hb _]. apply in_seq in Ha, Hb. eapply NoDup_concat_disj; try eassumption; lia.
Qed.
Lemma T_sorted : StronglySorted lt T.
Proof.
  apply sorted_lt; [|apply sort_sorted]. eapply Permutation_NoDup; [apply sort_perm|]. unfold transient_classes_indices.
  eapply Permutation_NoDup; [apply concat_sort_perm|]. apply map_nth_seq_filter; [unfold classes_indices; apply map_length|].
  destruct (classes_enum n _ comps HE) as [[HP _] _]. apply HP.
Qed.
Lemma R_in x : In x R <-> x < n /\ forall y, reach n (edge p) x y -> reach n (edge p) y x.
Proof. apply recurrent_state_in; assumption. Qed.
Lemma T_in x : In x T <-> x < n /\ exists y, reach n (edge p) x y /\ ~ reach n (edge p) y x.
Proof. apply transient_state_in; assumption. Qed.
Lemma TR_disj x : In x T -> In x R -> False.
Proof. rewrite T_in, R_in. intros [_ (y & H1 & H2)] [_ H]. apply H2, H, H1. Qed.
Lemma TR_cover x : x < n -> In x T \/ In x R.
Proof.
  intros Hx. destruct (classes_enum n _ comps HE) as [[HP HM] _]. destruct (part_cover n _ x HP Hx) as (B & HB & HxB).
  destruct (closed_dec n p B) as [HC|HC].
  - right. unfold R, recurrent_states_indices. rewrite in_sort, in_concat. exists B. split; [|exact HxB]. apply (recurrent_in n); auto.
  - left. unfold T, transient_states_indices. rewrite in_sort, in_concat. exists B. split; [|exact HxB]. apply (transient_in n); auto.
Qed.
Lemma TR_nodup : NoDup (T ++ R).
Proof.
  assert (HT : NoDup T). { pose proof T_sorted as H. induction H as [|x l Hl IH Hx]; constructor; [|exact IH]. intros C. rewrite Forall_forall in Hx. specialize (Hx x C). lia. }
  assert (HR : NoDup R). { pose proof R_sorted as H. induction H as [|x l Hl IH Hx]; constructor; [|exact IH]. intros C. rewrite Forall_forall in Hx. specialize (Hx x C). lia. }
  pose proof TR_disj as HD. clear - HT HR HD. induction T as [|x l IH]; simpl; [exact HR|]. inversion HT; subst. constructor.
  - rewrite in_app_iff. intros [C|C]; [contradiction|]. apply (HD x); [left; reflexivity|exact C].
  - apply IH; [assumption|]. intros y Hy. apply HD. right; exact Hy.
Qed.
Lemma TR_perm : Permutation (seq 0 n) (T ++ R).
Proof.
  apply NoDup_Permutation; [apply seq_NoDup|apply TR_nodup|]. intros x. rewrite in_seq, in_app_iff. split.
  - intros H. apply TR_cover; lia.
  - intros [H|H]; [apply T_in in H|apply R_in in H]; lia.
Qed.
Lemma TR_length : length (T ++ R) = n.
Proof. rewrite <- (Permutation_length TR_perm). apply seq_length. Qed.
Lemma TR_id : (forall a b, In a T -> In b R -> a < b) -> T ++ R = seq 0 n.
Proof.
  intros H. apply sorted_lt_unique; [apply ssorted_app; [apply T_sorted|apply R_sorted|exact H]|apply ssorted_seq|].
  intros x. split; intros Hx; [eapply Permutation_in; [apply Permutation_sym, TR_perm|exact Hx]|eapply Permutation_in; [apply TR_perm|exact Hx]].
Qed.
Lemma canon_get a b : a < n -> b < n ->
  mget (mc_canonical p R T) a b = mget p (nth a (T ++ R) 0) (nth b (T ++ R) 0) .
Proof.
  intros Ha Hb. unfold mc_canonical.
  assert (Hid : (forall x y, In x T -> In y R -> x < y) -> mget p a b = mget p (nth a (T ++ R) 0) (nth b (T ++ R) 0)).
  { intros H. rewrite (TR_id H), !seq_nth by assumption. reflexivity. }
  destruct (Nat.eqb (length R) 0 || Nat.eqb (length T) 0) eqn:E0.
  - apply Hid. apply orb_true_iff in E0. rewrite !Nat.eqb_eq in E0. destruct E0 as [E0|E0]; apply length_zero_iff_nil in E0; rewrite E0; intros x y H1 H2; contradiction.
  - destruct (Nat.ltb (list_max0 T) (list_min0 R)) eqn:E1.
    + apply Hid. intros x y Hx Hy. apply Nat.ltb_lt in E1. apply list_max0_ge in Hx. apply list_min0_le in Hy. lia.
    + apply mget_mix; rewrite TR_length; assumption.
Qed.
Lemma canon_wf : wf n n (mc_canonical p R T).
Proof.
  unfold mc_canonical. destruct (_ || _); [exact Hp|]. destruct (Nat.ltb _ _); [exact Hp|].
  pose proof (wf_mix p (T ++ R) (T ++ R)) as H. rewrite TR_length in H. exact H.
Qed.
Lemma is_canonical_spec : is_canonical p comps = true <-> (forall a b, In a T -> In b R -> a < b).
Proof.
  unfold is_canonical. fold T R. destruct (Nat.eqb (length R) 0 || Nat.eqb (length T) 0) eqn:E0.
  - split; [intros _|reflexivity]. apply orb_true_iff in E0. rewrite !Nat.eqb_eq in E0. destruct E0 as [E0|E0]; apply length_zero_iff_nil in E0; rewrite E0; intros x y H1 H2; contradiction.
  - rewrite Nat.ltb_lt. split.
    + intros H x y Hx Hy. apply list_max0_ge in Hx. apply list_min0_le in Hy. lia.
    + intros H. apply orb_false_iff in E0. rewrite !Nat.eqb_neq in E0. destruct E0 as [E0 E1].
      apply H.
      * clear - E1. revert E1. generalize T. clear. intros l. induction l as [|x l IH]; simpl; [congruence|]. intros _. destruct l as [|y l]; [left; simpl; lia|].
        specialize (IH ltac:(simpl; congruence)). change (list_max0 (x :: y :: l)) with (Nat.max x (list_max0 (y :: l))). destruct (Nat.max_spec x (list_max0 (y :: l))) as [[_ ->]|[_ ->]]; [right; exact IH|left; reflexivity].
      * clear - E0. revert E0. generalize R. clear. intros [|x l]; simpl; [congruence|]. intros _. induction l as [|y l IH]; simpl; [left; reflexivity|].
        destruct (Nat.min_spec y (fold_right Nat.min x l)) as [[_ ->]|[_ ->]]; [right; left; reflexivity|destruct IH as [IH|IH]; [left; exact IH|right; right; exact IH]].
Qed.
End Canon.

(** What "canonical form of c" means. *)
Lemma to_canonical_spec n c comps : valid_chain n c -> scc_enum n (edge (ch_p c)) comps ->
  let r := to_canonical_form c comps in
  valid_chain n r /\
  exists s k, Permutation (seq 0 n) s /\ k <= n /\
    (forall a, a < n -> nth a (ch_states r) ""%string = nth (nth a s 0) (ch_states c) ""%string) /\
    (forall a b, a < n -> b < n -> mget (ch_p r) a b = mget (ch_p c) (nth a s 0) (nth b s 0)) /\
    (forall a, a < n -> a < k <-> exists y, reach n (edge (ch_p c)) (nth a s 0) y /\ ~ reach n (edge (ch_p c)) y (nth a s 0)) /\
    (forall a b, k <= a < n -> b < k -> mget (ch_p r) a b = 0q).
Proof.
  intros (Hn & (Hp & Hpos & Hsum) & (Hlen & HNs & Hne)) HE r.
  set (T := transient_states_indices (ch_p c) comps). set (R := recurrent_states_indices (ch_p c) comps).
  pose proof (TR_perm n (ch_p c) comps Hp HE) as HPm. fold T R in HPm.
  pose proof (TR_length n (ch_p c) comps Hp HE) as HLn. fold T R in HLn.
  assert (Hr : ch_p r = mc_canonical (ch_p c) R T) by reflexivity.
  assert (Hst : ch_states r = map (fun i => nth i (ch_states c) ""%string) (T ++ R)) by reflexivity.
  assert (Hs : forall a, a < n -> nth a (T ++ R) 0 < n).
  { intros a Ha. assert (In (nth a (T ++ R) 0) (seq 0 n)); [|apply in_seq in H; lia]. eapply Permutation_in; [apply Permutation_sym; exact HPm|]. apply nth_In. lia. }
  assert (Hget : forall a b, a < n -> b < n -> mget (ch_p r) a b = mget (ch_p c) (nth a (T ++ R) 0) (nth b (T ++ R) 0)).
  { intros a b Ha Hb. rewrite Hr. apply (canon_get n); assumption. }
  assert (Hcase : forall a, a < n -> a < length T <-> exists y, reach n (edge (ch_p c)) (nth a (T ++ R) 0) y /\ ~ reach n (edge (ch_p c)) y (nth a (T ++ R) 0)).
  { intros a Ha. split.
    - intros Hl. rewrite app_nth1 by exact Hl. assert (HI : In (nth a T 0) T) by (apply nth_In; exact Hl). apply (T_in n) in HI; [apply HI|exact Hp|exact HE].
    - intros HX. destruct (Nat.lt_ge_cases a (length T)) as [|Hge]; [assumption|]. exfalso. rewrite app_nth2 in HX by exact Hge.
      assert (HI : In (nth (a - length T) R 0) R) by (apply nth_In; rewrite app_length in HLn; lia).
      apply (R_in n) in HI; [|exact Hp|exact HE]. destruct HX as (y & H1 & H2). apply H2, HI, H1. }
  assert (HkT : length T <= n) by (rewrite app_length in HLn; lia).
  split; [split; [exact Hn|split; [split; [|split]|split; [|split]]]|exists (T ++ R), (length T); split; [exact HPm|split; [exact HkT|split; [|split; [exact Hget|split; [exact Hcase|]]]]]].
  - rewrite Hr. apply canon_wf; assumption.
  - intros i j Hi Hj. rewrite Hget by assumption. apply Hpos; apply Hs; assumption.
  - intros i Hi. transitivity (sumn n (fun j => mget (ch_p c) (nth i (T ++ R) 0) (nth j (T ++ R) 0))); [apply sumn_ext; intros j Hj; apply Hget; assumption|].
    rewrite <- (Hsum (nth i (T ++ R) 0)) by (apply Hs; exact Hi).
    transitivity (lsum (map (fun j => mget (ch_p c) (nth i (T ++ R) 0) j) (T ++ R))).
    + assert (G : forall f : nat -> Qc, sumn n (fun j => f (nth j (T ++ R) 0)) = lsum (map f (T ++ R))).
      { intros f. rewrite <- lsum_tab, <- HLn. unfold tab. rewrite <- (map_map (fun j => nth j (T ++ R) 0) f). f_equal. f_equal. apply (tab_of_nth (T ++ R) 0). }
      apply (G (fun j => mget (ch_p c) (nth i (T ++ R) 0) j)).
    + rewrite <- lsum_tab. unfold tab. apply lsum_perm. apply Permutation_map, Permutation_sym. exact HPm.
  - rewrite Hst, map_length. exact HLn.
  - rewrite Hst. apply NoDup_map_inj; [|eapply Permutation_NoDup; [exact HPm|apply seq_NoDup]].
    intros x y Hx Hy Heq. apply (Permutation_in _ (Permutation_sym HPm)) in Hx, Hy. apply in_seq in Hx, Hy. apply (NoDup_nth (ch_states c) ""%string) in Heq; [exact Heq|exact HNs|lia|lia].
  - rewrite Hst. intros s Hin. apply in_map_iff in Hin. destruct Hin as (x & <- & Hx). apply (Permutation_in _ (Permutation_sym HPm)) in Hx. apply in_seq in Hx. apply Hne. apply nth_In. lia.
  - intros a Ha. rewrite Hst. rewrite nth_indep with (d' := nth 0 (ch_states c) ""%string) by (rewrite map_length; lia). apply (map_nth (fun i => nth i (ch_states c) ""%string)).
  - intros a b Ha Hb. rewrite Hget by lia.
    assert (HI : In (nth a (T ++ R) 0) R) by (rewrite app_nth2 by lia; apply nth_In; rewrite app_length in HLn; lia).
    assert (HJ : In (nth b (T ++ R) 0) T) by (rewrite app_nth1 by lia; apply nth_In; lia).
    destruct (Qc_eq_dec (mget (ch_p c) (nth a (T ++ R) 0) (nth b (T ++ R) 0)) 0q) as [e|Hne0]; [exact e|exfalso].
    assert (He : edge (ch_p c) (nth a (T ++ R) 0) (nth b (T ++ R) 0)).
    { unfold edge. specialize (Hpos (nth a (T ++ R) 0) (nth b (T ++ R) 0) (Hs a ltac:(lia)) (Hs b ltac:(lia))). apply Qcle_lt_or_eq in Hpos. destruct Hpos as [|C]; [assumption|congruence]. }
    apply (R_in n) in HI; [|exact Hp|exact HE]. apply (T_in n) in HJ; [|exact Hp|exact HE]. destruct HI as [HIn HI], HJ as [HJn (y & H1 & H2)].
    apply H2. pose proof (reach_step n (edge (ch_p c)) _ _ HIn HJn He) as R1. eapply reach_trans; [|exact R1]. apply HI. eapply reach_trans; eassumption.
Qed.

(* ---------- C33, C34: absorbing states ---------- *)
Lemma row_one n P i : stochastic n P -> i < n -> mget P i i = 1q -> forall j, j < n -> j <> i -> mget P i j = 0q.
Proof.
  intros (HW & Hpos & Hsum) Hi H1 j Hj Hji. destruct (Qc_eq_dec (mget P i j) 0q) as [e|Hne]; [exact e|exfalso].
  assert (Hp : (0 < mget P i j)%Qc) by (specialize (Hpos i j Hi Hj); apply Qcle_lt_or_eq in Hpos; destruct Hpos as [|C]; [assumption|congruence]).
  specialize (Hsum i Hi).
  assert (L : (mget P i i + mget P i j <= sumn n (fun j => mget P i j))%Qc).
  { apply Qcle_trans with (sumn n (fun x => (if Nat.eqb x i then mget P i i else 0q) + (if Nat.eqb x j then mget P i j else 0q))%Qc).
    - rewrite sumn_plus. rewrite (sumn_single n _ i), (sumn_single n _ j); try assumption; [rewrite !Nat.eqb_refl; apply Qcle_refl| |];
      intros x Hx Hne'; apply Nat.eqb_neq in Hne'; rewrite Hne'; reflexivity.
    - apply sumn_le. intros x Hx. pose proof (Hpos i x Hi Hx). destruct (Nat.eqb_spec x i), (Nat.eqb_spec x j); subst; try congruence; qclra. }
  rewrite Hsum, H1 in L. qclra.
Qed.
Lemma absorbing_in n P i : wf n n P -> In i (absorbing_indices P) <-> i < n /\ isclose (mget P i i) 1 = true.
Proof. intros [HW _]. unfold absorbing_indices. rewrite filter_In, in_seq. unfold nrows. rewrite HW. split; intros [A B]; split; try assumption; lia. Qed.
Lemma absorbing_exact_in n P i : wf n n P -> i < n -> mget P i i = 1q -> In i (absorbing_indices P).
Proof. intros HW Hi H1. apply (absorbing_in n); [exact HW|]. split; [exact Hi|]. rewrite H1. apply isclose_refl. Qed.

(** Some state of the set can be reached from x. *)
Definition hits (n : nat) (p : mat) (known : list nat) (x : nat) : Prop := exists a, In a known /\ reach n (edge p) x a.

Lemma filter_length_le {A} (f : A -> bool) l : length (filter f l) <= length l.
Proof. induction l; simpl; [lia|]. destruct (f a); simpl; lia. Qed.

Lemma abs_loop_spec n p fuel : forall known unknown,
  (forall x, x < n <-> In x known \/ In x unknown) -> (forall x, In x known -> In x unknown -> False) -> length unknown < fuel ->
  exists u, abs_loop fuel p known unknown = Ok u /\
    forall x, In x u <-> In x unknown /\ ~ hits n p known x.
Proof.
  induction fuel as [|fuel IH]; intros known unknown Hall Hdj Hf; [lia|]. simpl.
  set (found := filter (fun i => existsb (fun j => edgeb p i j) known) unknown).
  assert (HF : forall x, In x found <-> In x unknown /\ exists a, In a known /\ edge p x a).
  { intros x. unfold found. rewrite filter_In, existsb_exists. split; intros [A (a & B & C)]; (split; [exact A|]); exists a; (split; [exact B|]); apply edgeb_spec; exact C. }
  destruct (Nat.eqb (length found) 0) eqn:E0.
  - exists unknown. split; [reflexivity|]. intros x. split; [|intros [H _]; exact H]. intros Hx. split; [exact Hx|].
    apply Nat.eqb_eq, length_zero_iff_nil in E0.
    assert (Hdis : forall y, In y unknown -> forall b, In b known -> ~ edge p y b).
    { intros y Hy b Hb Hed. assert (In y found) by (apply HF; split; [exact Hy|exists b; split; assumption]). rewrite E0 in H. destruct H. }
    intros (a & Ha & k & Hw). induction Hw as [i Hi|k i j l Hi Hj He Hw IHw]; [eapply Hdj; eassumption|].
    apply IHw; [|exact Ha]. destruct (proj1 (Hall j) Hj) as [Hk|Hk]; [|exact Hk]. exfalso. apply (Hdis i Hx j Hk He).
  - apply Nat.eqb_neq in E0.
    set (unk' := filter (fun i => negb (memn i found)) unknown).
    assert (HU : forall x, In x unk' <-> In x unknown /\ ~ In x found).
    { intros x. unfold unk'. rewrite filter_In, negb_true_iff, memn_false. tauto. }
    assert (HL : length unk' < length unknown).
    { destruct found as [|y found'] eqn:Ef; [simpl in E0; lia|]. rewrite <- Ef in *. 
      assert (Hy : In y found) by (rewrite Ef; left; reflexivity).
      assert (HT : length unknown = length (filter (fun _ => true) unknown)) by (rewrite filter_true; reflexivity). rewrite HT. unfold unk'. apply filter_length_lt with (x := y); [reflexivity|apply HF; exact Hy| |reflexivity].
      apply negb_false_iff, memn_In. left; reflexivity. }
    destruct (IH (known ++ found) unk') as (u & Hu & Hspec).
    + intros x. rewrite in_app_iff, HU, Hall. split; [|pose proof (proj1 (HF x)); tauto].
      intros [H|H]; [left; left; exact H|]. destruct (memn x found) eqn:Em; [apply memn_In in Em|apply memn_false in Em]; tauto.
    + intros x Hx1 Hx2. apply HU in Hx2. apply in_app_iff in Hx1. destruct Hx1 as [Hx1|Hx1]; [|tauto]. apply (Hdj x Hx1). apply Hx2.
    + lia.
    + exists u. split; [exact Hu|]. intros x. rewrite Hspec, HU.
      assert (HH : hits n p (known ++ found) x <-> hits n p known x).
      { split.
        - intros (a & Ha & Hr). apply in_app_iff in Ha. destruct Ha as [Ha|Ha]; [exists a; split; assumption|].
          apply HF in Ha. destruct Ha as [Ha (b & Hb & He)]. exists b. split; [exact Hb|]. eapply reach_trans; [exact Hr|].
          apply reach_step; [apply Hall; right; exact Ha|apply Hall; left; exact Hb|exact He].
        - intros (a & Ha & Hr). exists a. split; [apply in_app_iff; left; exact Ha|exact Hr]. }
      rewrite HH. split; [tauto|]. intros [H1 H2]. split; [split; [exact H1|]|exact H2]. intros C. apply H2.
      apply HF in C. destruct C as [C (b & Hb & He)]. exists b. split; [exact Hb|]. apply reach_step; [apply Hall; right; exact C|apply Hall; left; exact Hb|exact He].
Qed.

Lemma hits_dec n p K x : wf n n p -> x < n -> (forall a, In a K -> a < n) -> hits n p K x \/ ~ hits n p K x.
Proof.
  intros Hp Hx HK. destruct (existsb (reachb p x) K) eqn:E.
  - left. apply existsb_exists in E. destruct E as (a & Ha & Hr). exists a. split; [exact Ha|]. apply (reachb_spec n); auto.
  - right. intros (a & Ha & Hr). assert (T : existsb (reachb p x) K = true); [|congruence]. apply existsb_exists. exists a. split; [exact Ha|]. apply (reachb_spec n); auto.
Qed.

Lemma is_absorbing_spec n P : 0 < n -> wf n n P ->
  exists b, is_absorbing P = Ok b /\ (b = true <-> forall i, i < n -> exists a, In a (absorbing_indices P) /\ reach n (edge P) i a).
Proof.
  intros Hn HW. unfold is_absorbing. assert (Hr : nrows P = n) by apply HW. rewrite Hr.
  set (A := absorbing_indices P). assert (HA : forall a, In a A -> a < n) by (intros a Ha; apply (absorbing_in n) in Ha; [apply Ha|exact HW]).
  destruct (Nat.eqb (length A) 0) eqn:E0.
  - exists false. split; [reflexivity|]. split; [discriminate|]. intros H. destruct (H 0 Hn) as (a & Ha & _). apply Nat.eqb_eq, length_zero_iff_nil in E0. rewrite E0 in Ha. destruct Ha.
  - destruct (abs_loop_spec n P (n + 1) A (filter (fun i => negb (memn i A)) (seq 0 n))) as (u & Hu & Hs).
    + intros x. rewrite filter_In, in_seq, negb_true_iff, memn_false. split.
      * intros H. destruct (memn x A) eqn:Em; [left; apply memn_In; exact Em|right; split; [lia|apply memn_false; exact Em]].
      * intros [H|H]; [apply HA; exact H|lia].
    + intros x H1 H2. apply filter_In in H2. destruct H2 as [_ H2]. apply negb_true_iff, memn_false in H2. contradiction.
    + pose proof (filter_length_le (fun i => negb (memn i A)) (seq 0 n)) as H. rewrite seq_length in H. lia.
    + rewrite Hu. simpl. exists (Nat.eqb (length u) 0). split; [reflexivity|]. rewrite Nat.eqb_eq, length_zero_iff_nil.
      assert (Hun : forall x, In x u <-> x < n /\ ~ hits n P A x).
      { intros x. rewrite Hs, filter_In, in_seq, negb_true_iff, memn_false. split; [intros [H1 H2]; split; [lia|exact H2]|].
        intros [H1 H2]. split; [split; [lia|]|exact H2]. intros C. apply H2. exists x. split; [exact C|apply reach_refl; exact H1]. }
      split.
      * intros H i Hi. destruct (hits_dec n P A i HW Hi HA) as [h|h]; [exact h|]. exfalso. assert (In i u) by (apply Hun; split; assumption). rewrite H in H0. destruct H0.
      * intros H. destruct u as [|x u]; [reflexivity|]. exfalso. destruct (proj1 (Hun x) (or_introl eq_refl)) as [Hx HX]. apply HX. apply H; exact Hx.
Qed.

(* ---------- C40 ---------- *)
Lemma monotone_spec n P : wf n n P -> (is_stochastically_monotone P = true <->
  forall i k m, i < k -> k < n -> 1 <= m < n -> (tail n P i m <= tail n P k m)%Qc).
Proof.
  intros HW. assert (Hr : nrows P = n) by apply HW. unfold is_stochastically_monotone. rewrite Hr, forallb_forall. split.
  - intros H i k m Hik Hk Hm. specialize (H m). rewrite in_seq in H. specialize (H ltac:(lia)). rewrite forallb_forall in H.
    assert (Hstep : forall a, a + 1 < n -> (tail n P a m <= tail n P (a + 1) m)%Qc).
    { intros a Ha. specialize (H a). rewrite in_seq in H. specialize (H ltac:(lia)). apply negb_true_iff, Qcltb_ge in H. exact H. }
    induction k as [|k IH]; [lia|]. destruct (Nat.eq_dec i k) as [->|Hne].
    + rewrite <- (Nat.add_1_r k). apply Hstep. lia.
    + apply Qcle_trans with (tail n P k m); [apply IH; lia|]. rewrite <- (Nat.add_1_r k). apply Hstep. lia.
  - intros H m Hm. apply in_seq in Hm. apply forallb_forall. intros k Hk. apply in_seq in Hk. apply negb_true_iff.
    destruct (Qcltb _ _) eqn:El; [|reflexivity]. exfalso. apply Qcltb_lt in El. specialize (H k (k + 1) m ltac:(lia) ltac:(lia) ltac:(lia)).
    unfold tail in H. qclra.
Qed.
Lemma monotone_dominated n P : stochastic n P -> (is_stochastically_monotone P = true <-> forall i k, i < k -> k < n -> dominated n P i k).
Proof.
  intros (HW & Hpos & Hsum). rewrite (monotone_spec n P HW). unfold dominated. split.
  - intros H i k Hik Hk m Hm. destruct m as [|m]; [|apply H; lia]. 
    assert (G : forall a, a < n -> tail n P a 0 = 1q). { intros a Ha. rewrite <- (Hsum a Ha). unfold tail. apply sumn_ext. intros j Hj. reflexivity. }
    rewrite !G by lia. apply Qcle_refl.
  - intros H i k m Hik Hk Hm. apply H; lia.
Qed.
