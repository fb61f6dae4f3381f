(** L_Struct1: proofs about communicating, transient and recurrent classes. *)
From Coq Require Import Permutation Sorted.
From Verif Require Export M_Struct S_Struct L_Gen4.

(* ---------- reachability ---------- *)
Section Graph.
Context (n : nat) (E : nat -> nat -> Prop).

Lemma reach_refl i : i < n -> reach n E i i.
Proof. intros H; exists 0; constructor; exact H. Qed.
Lemma reach_trans i j k : reach n E i j -> reach n E j k -> reach n E i k.
Proof. intros [a Ha] [b Hb]; exists (a + b); eapply walk_app; eassumption. Qed.
Lemma reach_step i j : i < n -> j < n -> E i j -> reach n E i j.
Proof. intros Hi Hj He; exists 1; econstructor; try eassumption; constructor; exact Hj. Qed.
Lemma reach_lt i j : reach n E i j -> i < n /\ j < n.
Proof. intros [k H]; eapply walk_bounds; exact H. Qed.
Lemma mutual_refl i : i < n -> mutual n E i i.
Proof. intros H; split; apply reach_refl; exact H. Qed.
Lemma mutual_sym i j : mutual n E i j -> mutual n E j i.
Proof. intros [A B]; split; assumption. Qed.
Lemma mutual_trans i j k : mutual n E i j -> mutual n E j k -> mutual n E i k.
Proof. intros [A B] [C D]; split; eapply reach_trans; eassumption. Qed.
End Graph.

Lemma reachb_spec n p i j : wf n n p -> i < n -> j < n -> reachb p i j = true <-> reach n (edge p) i j.
Proof.
  intros Hp Hi Hj. unfold reachb. assert (Hn : nrows p = n) by (destruct Hp as [Hp _]; exact Hp). rewrite Hn.
  pose proof (closure_spec n (edge p) (adjacency p) (adjacency_wf n p Hp)
    (fun a b Ha Hb => adjacency_get n p a b Hp Ha Hb) i j Hi Hj) as HC.
  rewrite orb_true_iff, Nat.eqb_eq, HC. split.
  - intros [->|[k Hk]]; [apply reach_refl; exact Hi|exists (S k); exact Hk].
  - intros [[|k] Hk]; [inversion Hk; left; reflexivity|right; exists k; exact Hk].
Qed.
Lemma edgeb_spec p i j : edgeb p i j = true <-> edge p i j.
Proof. unfold edgeb, edge. split; [apply Qcltb_lt|intros H; destruct (Qcltb 0 (mget p i j)) eqn:E'; [reflexivity|]]. exfalso. apply Qcltb_ge in E'. qclra. Qed.

(* ---------- partitions ---------- *)
Lemma NoDup_concat_map {A} (f : A -> list nat) (l : list A) :
  NoDup l -> (forall a, In a l -> NoDup (f a)) ->
  (forall a b x, In a l -> In b l -> In x (f a) -> In x (f b) -> a = b) -> NoDup (concat (map f l)).
Proof.
  intros Hl Hf Hd. induction l as [|a l IH]; simpl; [constructor|].
  inversion Hl as [|? ? Hna Hl']; subst.
  assert (G : NoDup (concat (map f l))).
  { apply IH; [exact Hl'|intros; apply Hf; right; assumption|]. intros; eapply Hd; try eassumption; right; assumption. }
  assert (Hdis : forall x, In x (f a) -> ~ In x (concat (map f l))).
  { intros x Hx C. apply in_concat in C. destruct C as (B & HB & HxB). apply in_map_iff in HB. destruct HB as (b & <- & Hb).
    apply Hna. rewrite (Hd a b x); [exact Hb|left; reflexivity|right; exact Hb|exact Hx|exact HxB]. }
  clear IH. pose proof (Hf a (or_introl eq_refl)) as Ha. revert Ha Hdis. generalize (f a). induction l0 as [|y t IH]; simpl; intros Ha Hdis; [exact G|].
  inversion Ha; subst. constructor; [|apply IH; [assumption|intros; apply Hdis; right; assumption]].
  rewrite in_app_iff. intros [C|C]; [contradiction|]. apply (Hdis y); [left; reflexivity|exact C].
Qed.

Lemma part_disj n parts B B' x : partition_of n parts -> In B parts -> In B' parts -> In x B -> In x B' -> B = B'.
Proof.
  intros (_ & HN & _) HB HB' Hx Hx'.
  apply (In_nth _ _ []) in HB. apply (In_nth _ _ []) in HB'. destruct HB as (b & Hb & <-), HB' as (b' & Hb' & <-).
  f_equal. eapply NoDup_concat_disj; eassumption.
Qed.
Lemma part_block_nodup n parts B : partition_of n parts -> In B parts -> NoDup B.
Proof. intros (_ & HN & _) HB. apply (In_nth _ _ []) in HB. destruct HB as (b & Hb & <-). apply NoDup_concat_block; assumption. Qed.
Lemma part_lt n parts B x : partition_of n parts -> In B parts -> In x B -> x < n.
Proof. intros (_ & _ & HC) HB Hx. apply HC. apply in_concat. exists B; split; assumption. Qed.
Lemma part_cover n parts x : partition_of n parts -> x < n -> exists B, In B parts /\ In x B.
Proof. intros (_ & _ & HC) Hx. apply HC in Hx. apply in_concat in Hx. exact Hx. Qed.
Lemma part_nodup n parts : partition_of n parts -> NoDup parts.
Proof.
  intros (HE & HN & _). induction parts as [|B parts IH]; [constructor|]. constructor.
  - intros C. destruct B as [|x B]; [apply (HE []); [left; reflexivity|reflexivity]|].
    simpl in HN. inversion HN as [|? ? Hx _]; subst. apply Hx. apply in_app_iff. right. apply in_concat. exists (x :: B). split; [exact C|left; reflexivity].
  - apply IH; [intros; apply HE; right; assumption|]. simpl in HN. clear - HN. induction B as [|b B IH]; simpl in HN; [exact HN|]. inversion HN; auto.
Qed.
Lemma partition_perm n parts parts' : Permutation parts parts' -> partition_of n parts -> partition_of n parts'.
Proof.
  intros HP (A & B & C). repeat split.
  - intros b Hb. apply A. eapply Permutation_in; [apply Permutation_sym; exact HP|exact Hb].
  - eapply Permutation_NoDup; [|exact B]. clear - HP. induction HP; simpl; [constructor|apply Permutation_app_head; assumption| |eapply perm_trans; eassumption].
    rewrite !app_assoc. apply Permutation_app_tail, Permutation_app_comm.
  - intros Hx. apply C. apply in_concat in Hx. destruct Hx as (b & Hb & Hx). apply in_concat. exists b. split; [|exact Hx]. eapply Permutation_in; [apply Permutation_sym; exact HP|exact Hb].
  - intros Hx. apply C in Hx. apply in_concat in Hx. destruct Hx as (b & Hb & Hx). apply in_concat. exists b. split; [|exact Hx]. eapply Permutation_in; [exact HP|exact Hb].
Qed.
Lemma partition_sort n parts : partition_of n parts -> partition_of n (map sort_nat parts).
Proof.
  intros (A & B & C).
  assert (HP : Permutation (concat parts) (concat (map sort_nat parts))).
  { clear. induction parts; simpl; [constructor|]. apply Permutation_app; [apply sort_perm|assumption]. }
  repeat split.
  - intros b Hb. apply in_map_iff in Hb. destruct Hb as (b' & <- & Hb'). intros C'. apply (A b' Hb').
    pose proof (sort_perm b') as H. rewrite C' in H. apply Permutation_sym, Permutation_nil in H. exact H.
  - eapply Permutation_NoDup; eassumption.
  - intros Hx. apply C. eapply Permutation_in; [apply Permutation_sym; exact HP|exact Hx].
  - intros Hx. apply C in Hx. eapply Permutation_in; [exact HP|exact Hx].
Qed.
Lemma in_sort x l : In x (sort_nat l) <-> In x l.
Proof. split; intros H; eapply Permutation_in; [apply Permutation_sym, sort_perm|exact H|apply sort_perm|exact H]. Qed.

(* ---------- the executable enumeration of the components ---------- *)
Lemma sccs_enum n p : wf n n p -> scc_enum n (edge p) (sccs p).
Proof.
  intros Hp. assert (Hn : nrows p = n) by (destruct Hp as [Hp' _]; exact Hp').
  set (mut := fun i j => reachb p i j && reachb p j i).
  assert (HM : forall i j, i < n -> j < n -> mut i j = true <-> mutual n (edge p) i j).
  { intros i j Hi Hj. unfold mut, mutual. rewrite andb_true_iff, (reachb_spec n p i j Hp Hi Hj), (reachb_spec n p j i Hp Hj Hi). tauto. }
  set (leaders := filter (fun i => negb (existsb (fun j => mut i j) (seq 0 i))) (seq 0 n)).
  assert (HS : sccs p = map (fun i => filter (mut i) (seq 0 n)) leaders).
  { unfold sccs, leaders, mut. rewrite Hn. reflexivity. }
  assert (HL : forall i, In i leaders <-> i < n /\ forall j, j < i -> ~ mutual n (edge p) i j).
  { intros i. unfold leaders. rewrite filter_In, in_seq, negb_true_iff. split.
    - intros [Hi Hf]. split; [lia|]. intros j Hj C. apply HM in C; [|lia|lia].
      assert (T : existsb (fun j => mut i j) (seq 0 i) = true) by (apply existsb_exists; exists j; split; [apply in_seq; lia|exact C]). congruence.
    - intros [Hi Hf]. split; [lia|]. destruct (existsb (fun j => mut i j) (seq 0 i)) eqn:Ex; [|reflexivity].
      apply existsb_exists in Ex. destruct Ex as (j & Hj & Hm). apply in_seq in Hj. apply HM in Hm; [|lia|lia]. exfalso. apply (Hf j); [lia|exact Hm]. }
  assert (HF : forall i x, i < n -> In x (filter (mut i) (seq 0 n)) <-> x < n /\ mutual n (edge p) i x).
  { intros i x Hi. rewrite filter_In, in_seq. split.
    - intros [Hx Hm]. assert (x < n) by lia. split; [assumption|]. apply HM; assumption.
    - intros [Hx Hm]. split; [lia|]. apply HM; assumption. }
  assert (Hlead : forall x, x < n -> exists i, In i leaders /\ mutual n (edge p) i x).
  { induction x as [x IH] using lt_wf_ind. intros Hx.
    destruct (existsb (fun j => mut x j) (seq 0 x)) eqn:Ex.
    - apply existsb_exists in Ex. destruct Ex as (j & Hj & Hm). apply in_seq in Hj. apply HM in Hm; [|lia|lia].
      destruct (IH j ltac:(lia) ltac:(lia)) as (i & Hi & Hm'). exists i. split; [exact Hi|]. eapply mutual_trans; [exact Hm'|]. apply mutual_sym; exact Hm.
    - exists x. split; [|apply mutual_refl; exact Hx]. unfold leaders. apply filter_In. split; [apply in_seq; lia|]. rewrite Ex; reflexivity. }
  rewrite HS. repeat split.
  - intros B HB. apply in_map_iff in HB. destruct HB as (i & <- & Hi). apply HL in Hi. destruct Hi as [Hi _].
    intros C. assert (G : In i []); [|inversion G]. rewrite <- C. apply HF; [exact Hi|]. split; [exact Hi|apply mutual_refl; exact Hi].
  - apply NoDup_concat_map.
    + unfold leaders. apply NoDup_filter, seq_NoDup.
    + intros a _. apply NoDup_filter, seq_NoDup.
    + intros a b x Ha Hb Hxa Hxb. apply HL in Ha, Hb. destruct Ha as [Ha Ha'], Hb as [Hb Hb'].
      apply HF in Hxa; [|exact Ha]. apply HF in Hxb; [|exact Hb].
      assert (M : mutual n (edge p) a b) by (eapply mutual_trans; [apply Hxa|apply mutual_sym; apply Hxb]).
      destruct (Nat.lt_trichotomy a b) as [L|[L|L]]; [|exact L|].
      * exfalso. apply (Hb' a L). apply mutual_sym; exact M.
      * exfalso. apply (Ha' b L). exact M.
  - intros Hx. apply in_concat in Hx. destruct Hx as (B & HB & Hx). apply in_map_iff in HB. destruct HB as (i & <- & Hi).
    apply filter_In in Hx. destruct Hx as [Hx _]. apply in_seq in Hx. lia.
  - intros Hx. destruct (Hlead x Hx) as (i & Hi & Hm). apply in_concat. exists (filter (mut i) (seq 0 n)). split; [apply in_map_iff; exists i; split; [reflexivity|exact Hi]|].
    apply HF; [apply HL in Hi; apply Hi|]. split; [exact Hx|exact Hm].
  - apply in_map_iff in H. destruct H as (a & <- & Ha). apply HL in Ha. destruct Ha as [Ha _].
    apply HF in H0; [|exact Ha]. apply HF in H2; [|exact Ha]. apply (mutual_trans n (edge p) i a j); [apply mutual_sym; apply H0|apply H2].
  - apply in_map_iff in H. destruct H as (a & <- & Ha). apply HL in Ha. destruct Ha as [Ha _].
    apply HF in H0; [|exact Ha]. apply HF in H2; [|exact Ha]. apply (mutual_trans n (edge p) j a i); [apply mutual_sym; apply H2|apply H0].
  - intros Hm. apply in_map_iff in H. destruct H as (a & <- & Ha). apply HL in Ha. destruct Ha as [Ha _].
    apply HF in H0; [|exact Ha]. apply HF; [exact Ha|]. split; [exact H1|]. eapply mutual_trans; [apply H0|exact Hm].
Qed.

(* ---------- sorting classes ---------- *)
Lemma insert_class_perm x l : Permutation (x :: l) (insert_class x l).
Proof. induction l as [|y l IH]; simpl; [constructor; constructor|]. destruct (class_leb x y); [reflexivity|]. rewrite perm_swap. constructor. exact IH. Qed.
Lemma sort_classes_perm l : Permutation l (sort_classes l).
Proof. induction l as [|x l IH]; simpl; [constructor|]. rewrite <- insert_class_perm. constructor; exact IH. Qed.
Lemma in_sort_classes x l : In x (sort_classes l) <-> In x l.
Proof. split; intros H; eapply Permutation_in; [apply Permutation_sym, sort_classes_perm|exact H|apply sort_classes_perm|exact H]. Qed.

Lemma class_before_trans a b c : class_before a b -> class_before b c -> class_before a c.
Proof. unfold class_before; lia. Qed.
Lemma class_before_irr a : ~ class_before a a.
Proof. unfold class_before; lia. Qed.

Lemma class_leb_true a b : hd 0 a <> hd 0 b -> class_leb a b = true -> class_before a b.
Proof. unfold class_leb, class_before. rewrite orb_true_iff, andb_true_iff, Nat.ltb_lt, Nat.eqb_eq, Nat.leb_le. lia. Qed.
Lemma class_leb_false a b : class_leb a b = false -> class_before b a.
Proof. unfold class_leb, class_before. rewrite orb_false_iff, andb_false_iff, Nat.ltb_ge, Nat.eqb_neq, Nat.leb_gt. lia. Qed.

Lemma sort_classes_sorted l : NoDup (map (hd 0) l) -> StronglySorted class_before (sort_classes l).
Proof.
  induction l as [|x l IH]; simpl; intros HN; [constructor|]. inversion HN as [|? ? Hx HN']; subst. specialize (IH HN').
  assert (Hx' : forall y, In y (sort_classes l) -> hd 0 x <> hd 0 y).
  { intros y Hy C. apply (proj1 (in_sort_classes _ _)) in Hy. apply Hx. rewrite C. apply in_map; exact Hy. }
  revert IH Hx'. generalize (sort_classes l). clear. induction l as [|y l IH]; simpl; intros Hs Hx.
  - constructor; constructor.
  - inversion Hs as [|? ? Hs' Hy]; subst. destruct (class_leb x y) eqn:Ex.
    + assert (B : class_before x y) by (apply class_leb_true; [apply Hx; left; reflexivity|exact Ex]).
      constructor; [exact Hs|]. constructor; [exact B|]. eapply Forall_impl; [|exact Hy]. intros a Ha. eapply class_before_trans; eassumption.
    + constructor; [apply IH; [exact Hs'|intros; apply Hx; right; assumption]|].
      apply Forall_forall. intros a Ha. apply (Permutation_in _ (Permutation_sym (insert_class_perm x l))) in Ha. destruct Ha as [<-|Ha]; [apply class_leb_false; exact Ex|].
      rewrite Forall_forall in Hy. apply Hy; exact Ha.
Qed.

Lemma ssorted_unique {A} (R : A -> A -> Prop) (l l' : list A) :
  (forall a b c, R a b -> R b c -> R a c) -> (forall a, ~ R a a) ->
  StronglySorted R l -> StronglySorted R l' -> (forall x, In x l <-> In x l') -> l = l'.
Proof.
  intros HT HI Hl. revert l'. induction Hl as [|x l Hl IH Hx]; intros l' Hl' HE.
  - destruct l' as [|y l']; [reflexivity|]. exfalso. apply (HE y). left; reflexivity.
  - destruct Hl' as [|y l' Hl' Hy]; [exfalso; apply (HE x); left; reflexivity|].
    rewrite Forall_forall in Hx, Hy.
    assert (x = y).
    { destruct (proj1 (HE x) (or_introl eq_refl)) as [->|Hxl]; [reflexivity|].
      destruct (proj2 (HE y) (or_introl eq_refl)) as [->|Hyl]; [reflexivity|].
      exfalso. apply (HI x). eapply HT; [apply Hx; exact Hyl|apply Hy; exact Hxl]. }
    subst y. f_equal. apply IH; [exact Hl'|]. intros z. split; intros Hz.
    + destruct (proj1 (HE z) (or_intror Hz)) as [->|?]; [|assumption]. exfalso. apply (HI z). apply Hx; exact Hz.
    + destruct (proj2 (HE z) (or_intror Hz)) as [->|?]; [|assumption]. exfalso. apply (HI z). apply Hy; exact Hz.
Qed.

Lemma hd_in (l : list nat) : l <> [] -> In (hd 0 l) l.
Proof. destruct l; [congruence|left; reflexivity]. Qed.
Lemma part_heads n parts : partition_of n parts -> NoDup (map (hd 0) parts).
Proof.
  intros HP. pose proof (part_nodup n parts HP) as HN.
  assert (G : forall A B, In A parts -> In B parts -> hd 0 A = hd 0 B -> A = B).
  { intros A B HA HB He. eapply part_disj; try eassumption; [apply hd_in; apply HP; exact HA|rewrite He; apply hd_in; apply HP; exact HB]. }
  clear HP. induction HN as [|B parts HB HN IH]; simpl; constructor.
  - intros C. apply in_map_iff in C. destruct C as (B' & He & HB'). apply HB. rewrite (G B B'); [exact HB'|left; reflexivity|right; exact HB'|congruence].
  - apply IH. intros; apply G; try right; assumption.
Qed.

(* ---------- C31: communicating classes ---------- *)
(** What a correct listing of communicating classes is. *)
Definition class_listing (n : nat) (E : nat -> nat -> Prop) (cc : list (list nat)) : Prop :=
  scc_enum n E cc /\ (forall B, In B cc -> StronglySorted lt B) /\ StronglySorted class_before cc.

Lemma classes_enum n E comps : scc_enum n E comps -> scc_enum n E (classes_indices comps) /\ (forall B, In B (classes_indices comps) -> StronglySorted lt B).
Proof.
  intros [HP HM]. split; [split|].
  - apply partition_sort; exact HP.
  - intros B i j HB Hi Hj. apply in_map_iff in HB. destruct HB as (B' & <- & HB'). rewrite in_sort in *. apply HM; assumption.
  - intros B HB. apply in_map_iff in HB. destruct HB as (B' & <- & HB'). apply sorted_lt; [|apply sort_sorted].
    eapply Permutation_NoDup; [apply sort_perm|]. eapply part_block_nodup; eassumption.
Qed.
Lemma communicating_listing n E comps : scc_enum n E comps -> class_listing n E (communicating_indices comps).
Proof.
  intros H. destruct (classes_enum n E comps H) as [[HP HM] HS]. unfold communicating_indices. repeat split.
  - eapply partition_perm; [apply sort_classes_perm|exact HP].
  - eapply partition_perm; [apply sort_classes_perm|exact HP].
  - apply (partition_perm n _ _ (sort_classes_perm _) HP).
  - apply (partition_perm n _ _ (sort_classes_perm _) HP).
  - apply (proj1 (in_sort_classes _ _)) in H0. apply (HM B i j); assumption.
  - apply (proj1 (in_sort_classes _ _)) in H0. apply (HM B i j); assumption.
  - apply (proj1 (in_sort_classes _ _)) in H0. apply (HM B i j); assumption.
  - intros B HB. apply (proj1 (in_sort_classes _ _)) in HB. apply HS; exact HB.
  - apply sort_classes_sorted. eapply part_heads; exact HP.
Qed.
Lemma sorted_lt_unique (A B : list nat) : StronglySorted lt A -> StronglySorted lt B -> (forall x, In x A <-> In x B) -> A = B.
Proof. apply ssorted_unique; [intros; lia|intros; lia]. Qed.
Lemma class_in_other n E cc cc' B : class_listing n E cc -> class_listing n E cc' -> In B cc -> In B cc'.
Proof.
  intros ((HP & HM) & HS & _) ((HP' & HM') & HS' & _) HB.
  destruct B as [|x B0] eqn:EB; [exfalso; apply (proj1 HP [] HB); reflexivity|]. rewrite <- EB in *.
  assert (Hx : In x B) by (subst; left; reflexivity).
  pose proof (part_lt n cc B x HP HB Hx) as Hxn.
  destruct (part_cover n cc' x HP' Hxn) as (B' & HB' & Hx').
  assert (B = B'); [|subst B'; exact HB'].
  apply sorted_lt_unique; [apply HS; exact HB|apply HS'; exact HB'|]. intros y. split; intros Hy.
  - apply (HM' B' x y HB' Hx' (part_lt n cc B y HP HB Hy)). apply (HM B x y HB Hx (part_lt n cc B y HP HB Hy)). exact Hy.
  - apply (HM B x y HB Hx (part_lt n cc' B' y HP' HB' Hy)). apply (HM' B' x y HB' Hx' (part_lt n cc' B' y HP' HB' Hy)). exact Hy.
Qed.
Lemma listing_unique n E cc cc' : class_listing n E cc -> class_listing n E cc' -> cc = cc'.
Proof.
  intros H H'. apply (ssorted_unique class_before); [intros; eapply class_before_trans; eassumption|apply class_before_irr|apply H|apply H'|].
  intros B; split; eapply class_in_other; eassumption.
Qed.

(* ---------- C32: transient and recurrent classes ---------- *)
Lemma leaves_spec n p comps k : wf n n p -> scc_enum n (edge p) comps -> k < length comps ->
  leaves p comps k = true <-> ~ closed n (edge p) (nth k comps []).
Proof.
  intros Hp [HP HM] Hk. unfold leaves. rewrite existsb_exists.
  assert (HB : In (nth k comps []) comps) by (apply nth_In; exact Hk). split.
  - intros (l & Hl & H). apply in_seq in Hl. rewrite andb_true_iff, negb_true_iff, Nat.eqb_neq, existsb_exists in H. destruct H as (Hkl & i & Hi & H).
    apply existsb_exists in H. destruct H as (j & Hj & He). apply edgeb_spec in He. intros C.
    assert (Hjn : j < n) by (eapply part_lt; [exact HP|apply nth_In with (n := l); lia|exact Hj]).
    pose proof (C i j Hi Hjn He) as Hjk. apply Hkl. destruct HP as (_ & HN & _). eapply NoDup_concat_disj; try eassumption; lia.
  - intros HC.
    destruct (existsb (fun i => existsb (fun j => edgeb p i j && negb (memn j (nth k comps []))) (seq 0 n)) (nth k comps [])) eqn:Ex.
    + apply existsb_exists in Ex. destruct Ex as (i & Hi & Ex). apply existsb_exists in Ex. destruct Ex as (j & Hj & Ex). apply andb_true_iff in Ex. destruct Ex as [He Hm].
      apply negb_true_iff, memn_false in Hm. apply in_seq in Hj. destruct (part_cover n comps j HP) as (B & HB' & HjB); [lia|].
      apply (In_nth _ _ []) in HB'. destruct HB' as (l & Hl & <-). exists l. split; [apply in_seq; lia|].
      rewrite andb_true_iff, negb_true_iff, Nat.eqb_neq. split; [intros ->; contradiction|]. apply existsb_exists. exists i. split; [exact Hi|].
      apply existsb_exists. exists j. split; [exact HjB|exact He].
    + exfalso. apply HC. intros i j Hi Hj He. destruct (memn j (nth k comps [])) eqn:Em; [apply memn_In; exact Em|]. exfalso.
      assert (T : existsb (fun i => existsb (fun j => edgeb p i j && negb (memn j (nth k comps []))) (seq 0 n)) (nth k comps []) = true); [|congruence].
      apply existsb_exists. exists i. split; [exact Hi|]. apply existsb_exists. exists j. split; [apply in_seq; lia|]. rewrite Em. apply edgeb_spec in He. rewrite He. reflexivity.
Qed.
Lemma closed_perm n E A B : (forall x, In x A <-> In x B) -> closed n E A <-> closed n E B.
Proof. intros H. unfold closed. split; intros C i j Hi Hj He; apply H; eapply C; try eassumption; apply H; exact Hi. Qed.
Lemma closed_dec n p B : closed n (edge p) B \/ ~ closed n (edge p) B.
Proof.
  destruct (forallb (fun i => forallb (fun j => negb (edgeb p i j) || memn j B) (seq 0 n)) B) eqn:Ef.
  - left. intros i j Hi Hj He. rewrite forallb_forall in Ef. specialize (Ef i Hi). rewrite forallb_forall in Ef. assert (Hjs : In j (seq 0 n)) by (apply in_seq; lia). specialize (Ef j Hjs).
    apply orb_true_iff in Ef. destruct Ef as [Ef|Ef]; [|apply memn_In; exact Ef]. apply edgeb_spec in He. rewrite He in Ef. discriminate.
  - right. intros C. assert (T : forallb (fun i => forallb (fun j => negb (edgeb p i j) || memn j B) (seq 0 n)) B = true); [|congruence].
    apply forallb_forall. intros i Hi. apply forallb_forall. intros j Hj. apply in_seq in Hj. destruct (edgeb p i j) eqn:Ee; [|reflexivity]. simpl. apply memn_In. apply (C i j Hi); [lia|]. apply edgeb_spec; exact Ee.
Qed.

Lemma transient_in n p comps B : wf n n p -> scc_enum n (edge p) comps ->
  In B (transient_classes_indices p comps) <-> In B (classes_indices comps) /\ ~ closed n (edge p) B.
Proof.
  intros Hp HE. unfold transient_classes_indices. rewrite in_sort_classes, in_map_iff.
  assert (HK : forall k, k < length comps -> nth k (classes_indices comps) [] = sort_nat (nth k comps [])).
  { intros k Hk. unfold classes_indices. change (@nil nat) with (sort_nat []) at 1. apply map_nth. }
  split.
  - intros (k & <- & Hk). apply filter_In in Hk. destruct Hk as [Hk Hl]. apply in_seq in Hk. split.
    + apply nth_In. unfold classes_indices. rewrite map_length. lia.
    + rewrite HK by lia. rewrite (closed_perm n (edge p) _ (nth k comps [])); [|intros x; apply in_sort]. apply leaves_spec; [exact Hp|exact HE|lia|exact Hl].
  - intros [HB HC]. apply (In_nth _ _ []) in HB. destruct HB as (k & Hk & <-). unfold classes_indices in Hk. rewrite map_length in Hk.
    exists k. split; [reflexivity|]. apply filter_In. split; [apply in_seq; lia|]. apply (leaves_spec n); [exact Hp|exact HE|exact Hk|].
    rewrite HK in HC by exact Hk. rewrite (closed_perm n (edge p) _ (nth k comps [])) in HC; [exact HC|intros x; apply in_sort].
Qed.
Lemma list_nat_eqb_eq a b : list_nat_eqb a b = true <-> a = b.
Proof. unfold list_nat_eqb. destruct (list_eq_dec Nat.eq_dec a b); split; congruence. Qed.
Lemma recurrent_in n p comps B : wf n n p -> scc_enum n (edge p) comps ->
  In B (recurrent_classes_indices p comps) <-> In B (classes_indices comps) /\ closed n (edge p) B.
Proof.
  intros Hp HE. unfold recurrent_classes_indices. rewrite in_sort_classes, filter_In, negb_true_iff.
  assert (HX : existsb (list_nat_eqb B) (transient_classes_indices p comps) = false <-> ~ In B (transient_classes_indices p comps)).
  { split.
    - intros H C. assert (T : existsb (list_nat_eqb B) (transient_classes_indices p comps) = true); [|congruence].
      apply existsb_exists. exists B. split; [exact C|apply list_nat_eqb_eq; reflexivity].
    - intros H. destruct (existsb _ _) eqn:Ex; [|reflexivity]. apply existsb_exists in Ex. destruct Ex as (B' & HB' & He). apply list_nat_eqb_eq in He. subst B'. contradiction. }
  rewrite HX, (transient_in n p comps B Hp HE). destruct (closed_dec n p B); tauto.
Qed.

Lemma NoDup_map_filter {A B} (f : A -> B) (g : A -> bool) l : NoDup (map f l) -> NoDup (map f (filter g l)).
Proof.
  induction l as [|x l IH]; simpl; intros H; [constructor|]. inversion H; subst. destruct (g x); simpl; [|auto]. constructor; [|auto].
  intros C. apply H2. apply in_map_iff in C. destruct C as (y & <- & Hy). apply filter_In in Hy. apply in_map. apply Hy.
Qed.
Lemma recurrent_sorted n E p comps : scc_enum n E comps -> StronglySorted class_before (recurrent_classes_indices p comps).
Proof.
  intros H. destruct (classes_enum n E comps H) as [[HP _] _]. apply sort_classes_sorted. apply NoDup_map_filter. eapply part_heads; exact HP.
Qed.
Lemma transient_sorted n E p comps : scc_enum n E comps -> StronglySorted class_before (transient_classes_indices p comps).
Proof.
  intros H. destruct (classes_enum n E comps H) as [[HP _] _]. apply sort_classes_sorted.
  pose proof (part_heads n _ HP) as HN. rewrite map_map.
  assert (G : map (hd 0) (classes_indices comps) = map (fun k => hd 0 (nth k (classes_indices comps) [])) (seq 0 (length comps))).
  { rewrite <- (tab_of_nth (classes_indices comps) []) at 1. unfold tab. rewrite map_map. replace (length (classes_indices comps)) with (length comps) by (unfold classes_indices; rewrite map_length; reflexivity). reflexivity. }
  rewrite G in HN. apply NoDup_map_filter. exact HN.
Qed.

(** communicating_indices restricted to a predicate on classes. *)
Lemma in_communicating B comps : In B (communicating_indices comps) <-> In B (classes_indices comps).
Proof. apply in_sort_classes. Qed.

(** States. *)
Lemma recurrent_state_in n p comps x : wf n n p -> scc_enum n (edge p) comps ->
  In x (recurrent_states_indices p comps) <-> x < n /\ forall y, reach n (edge p) x y -> reach n (edge p) y x.
Proof.
  intros Hp HE. unfold recurrent_states_indices. rewrite in_sort, in_concat.
  destruct (classes_enum n _ comps HE) as [[HP HM] _]. split.
  - intros (B & HB & Hx). apply (recurrent_in n) in HB; [|exact Hp|exact HE]. destruct HB as [HB HC].
    pose proof (part_lt n _ B x HP HB Hx) as Hxn. split; [exact Hxn|].
    intros y [k Hk].
    assert (Hy : In y B).
    { clear Hxn. revert Hx. induction Hk as [i Hi|k i j l Hi Hj He Hw IH]; intros Hx; [exact Hx|]. apply IH. apply (HC i j Hx Hj He). }
    apply (HM B x y HB Hx (part_lt n _ B y HP HB Hy)); exact Hy.
  - intros [Hx HR]. destruct (part_cover n _ x HP Hx) as (B & HB & HxB). exists B. split; [|exact HxB].
    apply (recurrent_in n); [exact Hp|exact HE|]. split; [exact HB|]. intros i j Hi Hj He.
    assert (Hin : i < n) by (eapply part_lt; eassumption).
    destruct (proj1 (HM B x i HB HxB Hin) Hi) as [R1 R2].
    apply (HM B x j HB HxB Hj). assert (R3 : reach n (edge p) x j) by (eapply reach_trans; [exact R1|apply reach_step; assumption]).
    split; [exact R3|apply HR; exact R3].
Qed.
Lemma transient_state_in n p comps x : wf n n p -> scc_enum n (edge p) comps ->
  In x (transient_states_indices p comps) <-> x < n /\ exists y, reach n (edge p) x y /\ ~ reach n (edge p) y x.
Proof.
  intros Hp HE. unfold transient_states_indices. rewrite in_sort, in_concat.
  destruct (classes_enum n _ comps HE) as [[HP HM] _]. split.
  - intros (B & HB & Hx). apply (transient_in n) in HB; [|exact Hp|exact HE]. destruct HB as [HB HC].
    pose proof (part_lt n _ B x HP HB Hx) as Hxn. split; [exact Hxn|].
    destruct (existsb (fun i => existsb (fun j => edgeb p i j && negb (memn j B)) (seq 0 n)) B) eqn:Ex.
    + apply existsb_exists in Ex. destruct Ex as (i & Hi & Ex). apply existsb_exists in Ex. destruct Ex as (j & Hj & Ex). apply andb_true_iff in Ex. destruct Ex as [He Hm].
      apply negb_true_iff, memn_false in Hm. apply in_seq in Hj. apply edgeb_spec in He. assert (Hin : i < n) by (eapply part_lt; eassumption).
      destruct (proj1 (HM B x i HB Hx Hin) Hi) as [R1 R2].
      assert (R3 : reach n (edge p) x j) by (eapply reach_trans; [exact R1|apply reach_step; [exact Hin|lia|exact He]]).
      exists j. split; [exact R3|]. intros R4. apply Hm. apply (HM B x j HB Hx); [lia|]. split; assumption.
    + exfalso. apply HC. intros i j Hi Hj He. destruct (memn j B) eqn:Em; [apply memn_In; exact Em|]. exfalso.
      assert (T : existsb (fun i => existsb (fun j => edgeb p i j && negb (memn j B)) (seq 0 n)) B = true); [|congruence].
      apply existsb_exists. exists i. split; [exact Hi|]. apply existsb_exists. exists j. split; [apply in_seq; lia|]. rewrite Em. apply edgeb_spec in He. rewrite He. reflexivity.
  - intros [Hx (y & R1 & R2)]. destruct (part_cover n _ x HP Hx) as (B & HB & HxB). exists B. split; [|exact HxB].
    apply (transient_in n); [exact Hp|exact HE|]. split; [exact HB|]. intros HC. apply R2.
    assert (Hy : In y B). { destruct R1 as [k Hk]. clear Hx R2. induction Hk as [i Hi|k i j l Hi Hj He Hw IH]; [exact HxB|]. apply IH. apply (HC i j HxB Hj He). }
    apply (HM B x y HB HxB (part_lt n _ B y HP HB Hy)); exact Hy.
Qed.

(** Some class is closed. *)
Lemma filter_length_lt {A} (f g : A -> bool) l x : (forall a, In a l -> f a = true -> g a = true) -> In x l -> f x = false -> g x = true ->
  length (filter f l) < length (filter g l).
Proof.
  induction l as [|a l IH]; simpl; intros H Hx Hf Hg; [destruct Hx|].
  assert (L : length (filter f l) <= length (filter g l)).
  { clear IH Hx. induction l as [|b l IH]; simpl; [lia|]. specialize (IH (fun a Ha => H a (match Ha with or_introl e => or_introl e | or_intror h => or_intror (or_intror h) end))).
    pose proof (H b (or_intror (or_introl eq_refl))) as Hb. destruct (f b); [rewrite (Hb eq_refl); simpl; lia|destruct (g b); simpl; lia]. }
  destruct Hx as [->|Hx].
  - rewrite Hf, Hg. simpl. lia.
  - specialize (IH (fun a Ha => H a (or_intror Ha)) Hx Hf Hg). pose proof (H a (or_introl eq_refl)) as Ha. destruct (f a); [rewrite (Ha eq_refl); simpl; lia|destruct (g a); simpl; lia].
Qed.
Lemma essential_exists n p i : wf n n p -> i < n ->
  exists x, reach n (edge p) i x /\ forall y, reach n (edge p) x y -> reach n (edge p) y x.
Proof.
  intros Hp. set (m := fun x => length (filter (reachb p x) (seq 0 n))).
  remember (m i) as k eqn:Hk. revert i Hk. induction k as [k IH] using lt_wf_ind. intros i Hk Hi.
  destruct (existsb (fun y => reachb p i y && negb (reachb p y i)) (seq 0 n)) eqn:Ex.
  - apply existsb_exists in Ex. destruct Ex as (y & Hy & Ex). apply in_seq in Hy. apply andb_true_iff in Ex. destruct Ex as [E1 E2].
    assert (Hyn : y < n) by lia. apply (reachb_spec n) in E1; [|exact Hp|exact Hi|exact Hyn].
    assert (L : m y < m i).
    { unfold m. apply filter_length_lt with (x := i); [|apply in_seq; lia|apply negb_true_iff; exact E2|].
      - intros a Ha E3. apply in_seq in Ha. apply (reachb_spec n) in E3; [|exact Hp|exact Hyn|lia]. apply (reachb_spec n); [exact Hp|exact Hi|lia|]. eapply reach_trans; eassumption.
      - apply (reachb_spec n); [exact Hp|exact Hi|exact Hi|]. apply reach_refl; exact Hi. }
    destruct (IH (m y) ltac:(lia) y eq_refl Hyn) as (x & R1 & R2). exists x. split; [eapply reach_trans; eassumption|exact R2].
  - exists i. split; [apply reach_refl; exact Hi|]. intros y Ry. destruct (reach_lt _ _ _ _ Ry) as [_ Hyn].
    destruct (reachb p y i) eqn:E1; [apply (reachb_spec n) in E1; assumption|]. exfalso.
    assert (T : existsb (fun y => reachb p i y && negb (reachb p y i)) (seq 0 n) = true); [|congruence].
    apply existsb_exists. exists y. split; [apply in_seq; lia|]. rewrite E1. apply (reachb_spec n) in Ry; [rewrite Ry; reflexivity|exact Hp|exact Hi|exact Hyn].
Qed.
Lemma some_recurrent n p comps i : wf n n p -> i < n -> scc_enum n (edge p) comps ->
  exists x, In x (recurrent_states_indices p comps) /\ reach n (edge p) i x.
Proof.
  intros Hp Hi HE. destruct (essential_exists n p i Hp Hi) as (x & R1 & R2). exists x. split; [|exact R1].
  apply (recurrent_state_in n); [exact Hp|exact HE|]. split; [apply (reach_lt _ _ _ _ R1)|exact R2].
Qed.

(* ---------- C35 ---------- *)
Lemma is_irreducible_spec n p comps : 0 < n -> wf n n p -> scc_enum n (edge p) comps ->
  is_irreducible comps = true <-> irreducible n (edge p).
Proof.
  intros Hn Hp HE. unfold is_irreducible. rewrite Nat.eqb_eq. destruct (communicating_listing n _ comps HE) as ((HP & HM) & _ & _).
  split.
  - intros HL i j Hi Hj. destruct (part_cover n _ i HP Hi) as (B & HB & HiB). destruct (part_cover n _ j HP Hj) as (B' & HB' & HjB').
    destruct (communicating_indices comps) as [|A [|A' l]]; simpl in HL; try lia. destruct HB as [<-|[]], HB' as [<-|[]].
    apply (HM A i j (or_introl eq_refl) HiB Hj); exact HjB'.
  - intros HI. destruct (part_cover n _ 0 HP Hn) as (B & HB & H0).
    assert (HA : forall B', In B' (communicating_indices comps) -> B' = B).
    { intros B' HB'. pose proof (proj1 HP B' HB') as HNE. apply hd_in in HNE. pose proof (part_lt n _ B' _ HP HB' HNE) as Hh.
      eapply part_disj; [exact HP|exact HB'|exact HB|exact HNE|]. apply (HM B 0 _ HB H0 Hh). split; apply HI; assumption. }
    pose proof (part_nodup n _ HP) as HN. destruct (communicating_indices comps) as [|A [|A' l]]; [destruct HB|reflexivity|].
    exfalso. inversion HN as [|? ? HnA _]; subst. apply HnA. rewrite (HA A), <- (HA A'); [left; reflexivity|right; left; reflexivity|left; reflexivity].
Qed.

(* ---------- communication matrix ---------- *)
Lemma communication_get n p comps i j : wf n n p -> scc_enum n (edge p) comps -> i < n -> j < n ->
  (zget (communication_matrix p comps) i j = 1%Z /\ mutual n (edge p) i j) \/
  (zget (communication_matrix p comps) i j = 0%Z /\ ~ mutual n (edge p) i j).
Proof.
  intros Hp HE Hi Hj. assert (Hn : nrows p = n) by (destruct Hp as [Hp' _]; exact Hp').
  unfold communication_matrix, zget. rewrite Hn, !tab_nth by assumption.
  destruct (communicating_listing n _ comps HE) as ((HP & HM) & _ & _).
  destruct (existsb _ _) eqn:Ex.
  - left. split; [reflexivity|]. apply existsb_exists in Ex. destruct Ex as (B & HB & Hm). apply andb_true_iff in Hm. destruct Hm as [Hm1 Hm2]. apply memn_In in Hm1, Hm2.
    apply (HM B i j HB Hm1 Hj); exact Hm2.
  - right. split; [reflexivity|]. intros M. destruct (part_cover n _ i HP Hi) as (B & HB & HiB).
    assert (HjB : In j B) by (apply (HM B i j HB HiB Hj); exact M).
    assert (T : existsb (fun c => memn i c && memn j c) (communicating_indices comps) = true); [|congruence].
    apply existsb_exists. exists B. split; [exact HB|]. apply andb_true_iff. split; apply memn_In; assumption.
Qed.
