(** L_LumpEnum: proofs about the enumeration of lumping partitions. *)
From Coq Require Import Permutation.
From Verif Require Export L_Cyclic S_Gen2.

Definition bstep (f : nat -> bool) (acc : list (list nat) * list nat) (position : nat) : list (list nat) * list nat :=
  let '(partition, subset) := acc in
  let subset := subset ++ [position] in
  if f position then (partition ++ [subset], []) else (partition, subset).
Lemma bstep_block f B : B <> [] -> NoDup B -> f (last B 0) = true -> (forall x, In x B -> x <> last B 0 -> f x = false) ->
  forall partition subset, fold_left (bstep f) B (partition, subset) = (partition ++ [subset ++ B], []).
Proof.
  induction B as [|a B IH]; intros HNe HN HL HF partition subset; [contradiction|]. inversion HN as [|? ? Ha HNB]; subst.
  cbn [fold_left bstep]. destruct B as [|b B'].
  - simpl in HL. rewrite HL. reflexivity.
  - assert (HLn : In (last (b :: B') 0) (b :: B')).
    { destruct (exists_last (l := b :: B') ltac:(discriminate)) as (l' & z & ->). rewrite last_last. apply in_app_iff. right; left; reflexivity. }
    change (last (a :: b :: B') 0) with (last (b :: B') 0) in *.
    rewrite (HF a) by (first [left; reflexivity|intros ->; contradiction]).
    rewrite IH; [|discriminate|exact HNB|exact HL|intros x Hx Hxl; apply HF; [right; exact Hx|exact Hxl]]. rewrite <- app_assoc. reflexivity.
Qed.
Lemma NoDup_app_split {A} (l l' : list A) : NoDup (l ++ l') -> NoDup l /\ NoDup l'.
Proof.
  induction l as [|a l IH]; simpl; intros H; [split; [constructor|exact H]|]. inversion H as [|? ? Ha HN]; subst. destruct (IH HN) as [A1 A2].
  split; [constructor; [intros C; apply Ha; apply in_app_iff; left; exact C|exact A1]|exact A2].
Qed.
Lemma bstep_parts f parts : (forall B, In B parts -> B <> [] /\ f (last B 0) = true /\ (forall x, In x B -> x <> last B 0 -> f x = false)) -> NoDup (concat parts) ->
  forall partition, fold_left (bstep f) (concat parts) (partition, []) = (partition ++ parts, []).
Proof.
  induction parts as [|B parts IH]; intros H HN partition; simpl; [rewrite app_nil_r; reflexivity|].
  simpl in HN. apply NoDup_app_split in HN. destruct HN as (HNB & HNr).
  destruct (H B (or_introl eq_refl)) as (A1 & A2 & A3). rewrite fold_left_app, (bstep_block f B A1 HNB A2 A3). simpl.
  rewrite IH; [rewrite <- app_assoc; reflexivity|intros; apply H; right; assumption|exact HNr].
Qed.
Lemma bits_gen size i : bits_partition size i = fst (fold_left (bstep (fun pos => Nat.testbit i pos || Nat.eqb pos (size - 1))) (seq 0 size) ([], [])).
Proof. reflexivity. Qed.
Lemma bstep_inv f k : let '(pt, sb) := fold_left (bstep f) (seq 0 k) ([], []) in
  concat pt ++ sb = seq 0 k /\ (forall B, In B pt -> B <> []) /\
  (forall x, x < k -> (f x = true <-> exists B, In B pt /\ last B 0 = x)) /\ (0 < k -> f (k - 1) = true -> sb = []).
Proof.
  induction k as [|k IH]; [simpl; split; [reflexivity|split; [intros B []|split; intros; lia]]|].
  rewrite seq_S, fold_left_app. cbn [fold_left]. destruct (fold_left (bstep f) (seq 0 k) ([], [])) as [pt sb]. destruct IH as (HC & HB & HF & HZ). cbn [bstep].
  replace (0 + k) with k by lia. destruct (f k) eqn:Ef.
  - split; [rewrite concat_app; simpl; rewrite !app_nil_r, app_assoc, HC; reflexivity|]. split; [|split].
    + intros B HIn. apply in_app_iff in HIn. destruct HIn as [HIn|[<-|[]]]; [apply HB; exact HIn|]. destruct sb; discriminate.
    + intros x Hx. destruct (Nat.eq_dec x k) as [->|].
      * split; [intros _; exists (sb ++ [k]); split; [apply in_app_iff; right; left; reflexivity|apply last_last]|intros _; exact Ef].
      * rewrite HF by lia. split; intros (B & HIn & HBx).
        -- exists B. split; [apply in_app_iff; left; exact HIn|exact HBx].
        -- apply in_app_iff in HIn. destruct HIn as [HIn|[<-|[]]]; [exists B; split; assumption|]. rewrite last_last in HBx. lia.
    + reflexivity.
  - split; [rewrite app_assoc, HC; reflexivity|]. split; [exact HB|split].
    + intros x Hx. destruct (Nat.eq_dec x k) as [->|]; [|apply HF; lia]. split; [congruence|]. intros (B & HIn & HBx). exfalso.
      assert (Hk : In k (seq 0 k)).
      { rewrite <- HC. apply in_app_iff. left. apply in_concat. exists B. split; [exact HIn|]. specialize (HB B HIn). destruct (exists_last HB) as (l' & z & ->). rewrite last_last in HBx. subst. apply in_app_iff. right; left; reflexivity. }
      apply in_seq in Hk. lia.
    + intros _ C. replace (S k - 1) with k in C by lia. congruence.
Qed.
Lemma bits_contiguous size i : 0 < size -> contiguous size (bits_partition size i).
Proof.
  intros Hs. rewrite bits_gen. pose proof (bstep_inv (fun pos => Nat.testbit i pos || Nat.eqb pos (size - 1)) size) as H. destruct (fold_left _ _ _) as [pt sb]. destruct H as (HC & HB & _ & HZ). cbn [fst].
  rewrite HZ, app_nil_r in HC; [split; assumption|exact Hs|]. rewrite Nat.eqb_refl. apply orb_true_r.
Qed.
Lemma bits_last size i x : 0 < size -> x < size - 1 -> (Nat.testbit i x = true <-> exists B, In B (bits_partition size i) /\ last B 0 = x).
Proof.
  intros Hs Hx. rewrite bits_gen. pose proof (bstep_inv (fun pos => Nat.testbit i pos || Nat.eqb pos (size - 1)) size) as H. destruct (fold_left _ _ _) as [pt sb]. destruct H as (_ & _ & HF & _). cbn [fst].
  rewrite <- HF by lia. replace (x =? size - 1) with false by (symmetry; apply Nat.eqb_neq; lia). rewrite orb_false_r. reflexivity.
Qed.
Lemma encode k : forall f : nat -> bool, exists i, i < 2 ^ k /\ forall x, x < k -> Nat.testbit i x = f x.
Proof.
  induction k as [|k IH]; intros f; [exists 0; split; [simpl; lia|intros; lia]|].
  destruct (IH (fun x => f (S x))) as (i & Hi & Hf). exists (Nat.b2n (f 0) + 2 * i). split.
  - rewrite Nat.pow_succ_r'. destruct (f 0); simpl Nat.b2n; lia.
  - intros [|x] Hx; [apply Nat.add_b2n_double_bit0|]. rewrite <- Hf by lia. replace (Nat.b2n (f 0) + 2 * i) with (2 * i + Nat.b2n (f 0)) by lia. apply Nat.testbit_succ_r.
Qed.
Lemma bits_complete size parts : 0 < size -> contiguous size parts -> exists i, i < 2 ^ (size - 1) /\ bits_partition size i = parts.
Proof.
  intros Hs (HC & HB). set (f := fun pos => existsb (fun B => Nat.eqb (last B 0) pos) parts).
  destruct (encode (size - 1) f) as (i & Hi & Hf). exists i. split; [exact Hi|]. rewrite bits_gen, <- HC.
  assert (HN : NoDup (concat parts)) by (rewrite HC; apply seq_NoDup).
  assert (Hlast : forall B, In B parts -> In (last B 0) B).
  { intros B HIn. destruct (exists_last (HB B HIn)) as (l' & z & ->). rewrite last_last. apply in_app_iff. right; left; reflexivity. }
  assert (Hlt : forall B x, In B parts -> In x B -> x < size).
  { intros B x HIn Hx. assert (H : In x (concat parts)) by (apply in_concat; exists B; split; assumption). rewrite HC in H. apply in_seq in H. lia. }
  assert (Hff : forall x, x < size -> (Nat.testbit i x || Nat.eqb x (size - 1)) = f x).
  { intros x Hx. destruct (Nat.eqb_spec x (size - 1)) as [->|].
    - rewrite orb_true_r. symmetry. unfold f. apply existsb_exists.
      destruct parts as [|B0 parts0] eqn:EP; [simpl in HC; destruct size; [lia|discriminate]|].
      destruct (exists_last (l := B0 :: parts0) ltac:(discriminate)) as (pr & Bl & Epr). exists Bl. rewrite Epr. split; [apply in_app_iff; right; left; reflexivity|].
      apply Nat.eqb_eq. rewrite Epr in HC. rewrite concat_app in HC. simpl in HC. rewrite app_nil_r in HC.
      assert (HBl : Bl <> []) by (apply HB; rewrite Epr; apply in_app_iff; right; left; reflexivity). destruct (exists_last HBl) as (l' & z & ->). rewrite last_last.
      destruct size; [lia|]. rewrite seq_S, app_assoc in HC. apply app_inj_tail in HC. destruct HC as [_ ->]. lia.
    - rewrite orb_false_r. apply Hf. lia. }
  rewrite bstep_parts; [reflexivity| |exact HN].
  intros B HIn. split; [apply HB; exact HIn|]. split.
  - rewrite Hff by (apply (Hlt B); [exact HIn|apply Hlast; exact HIn]). unfold f. apply existsb_exists. exists B. split; [exact HIn|apply Nat.eqb_refl].
  - intros x Hx Hxl. rewrite Hff by (apply (Hlt B); assumption). unfold f. apply not_true_iff_false. intros C. apply existsb_exists in C. destruct C as (B' & HIn' & E'). apply Nat.eqb_eq in E'.
    assert (Hx' : In x B') by (rewrite <- E'; apply Hlast; exact HIn').
    assert (B = B'); [|subst; congruence].
    destruct (In_nth _ _ [] HIn) as (b & Hb & EB). destruct (In_nth _ _ [] HIn') as (b' & Hb' & EB').
    destruct (Nat.eq_dec b b') as [->|Hne]; [congruence|]. exfalso. apply Hne. apply (NoDup_concat_disj parts b b' x HN Hb Hb'); [rewrite EB|rewrite EB']; assumption.
Qed.
Lemma bits_inj size i j : 0 < size -> i < 2 ^ (size - 1) -> j < 2 ^ (size - 1) -> bits_partition size i = bits_partition size j -> i = j.
Proof.
  intros Hs Hi Hj E. apply Nat.bits_inj. intros x. destruct (Nat.lt_ge_cases x (size - 1)) as [Hx|Hx].
  - pose proof (bits_last size i x Hs Hx) as A. pose proof (bits_last size j x Hs Hx) as B. rewrite E in A.
    destruct (Nat.testbit i x), (Nat.testbit j x); try reflexivity; exfalso; intuition congruence.
  - assert (G : forall i, i < 2 ^ (size - 1) -> Nat.testbit i x = false).
    { clear - Hx. intros i Hi. destruct (Nat.eq_dec i 0) as [->|]; [apply Nat.bits_0|]. apply Nat.bits_above_log2. apply Nat.log2_lt_pow2; [lia|]. eapply Nat.lt_le_trans; [exact Hi|]. apply Nat.pow_le_mono_r; [lia|exact Hx]. }
    rewrite !G by assumption. reflexivity.
Qed.
Lemma contiguous_partition n parts : contiguous n parts -> partition_of n parts.
Proof.
  intros (HC & HB). split; [exact HB|]. rewrite HC. split; [apply seq_NoDup|]. intros x. rewrite in_seq. lia.
Qed.
Lemma partition_blocks n parts : 0 < n -> partition_of n parts -> blocks_of n parts.
Proof.
  intros Hn (HB & HN & HC). split; assumption.
Qed.
Lemma lumpable_test_spec n p parts : 0 < n -> wf n n p -> partition_of n parts -> (lumpable_test p parts = true <-> lumpable p parts).
Proof.
  intros Hn Hp HP. pose proof (partition_blocks n parts Hn HP) as HB.
  destruct (mc_lump_spec n p [] parts Hn Hp HB) as [HI _]. unfold mc_lump in HI. unfold lumpable_test.
  destruct (minv _) as [iv|] eqn:EI.
  - destruct (meqb _ _) eqn:EM.
    + split; [|reflexivity]. intros _. apply HI. eexists; reflexivity.
    + split; [discriminate|]. intros HL. destruct (proj2 HI) as (r & Hr); [split; [apply HP|exact HL]|]. discriminate.
  - split; [discriminate|]. intros HL. destruct (proj2 HI) as (r & Hr); [split; [apply HP|exact HL]|]. discriminate.
Qed.
Lemma NoDup_map_seq_inj {A} (f : nat -> A) m : (forall i j, i < m -> j < m -> f i = f j -> i = j) -> NoDup (map f (seq 0 m)).
Proof.
  intros H. apply NoDup_map_inj; [|apply seq_NoDup]. intros x y Hx Hy E. apply in_seq in Hx, Hy. apply H; [lia|lia|exact E].
Qed.
Lemma find_lumping_spec n p : 2 <= n -> wf n n p ->
  NoDup (find_lumping_partitions p) /\
  forall parts, In parts (find_lumping_partitions p) <-> contiguous n parts /\ 2 <= length parts < n /\ lumpable p parts.
Proof.
  intros Hn Hp. unfold find_lumping_partitions. rewrite (wf_nrows _ _ _ Hp). destruct (Nat.eqb_spec n 2) as [->|Hne].
  - split; [constructor|]. intros parts. split; [intros []|]. intros (_ & H & _). lia.
  - split.
    + apply NoDup_filter, NoDup_filter, NoDup_map_seq_inj. intros i j Hi Hj E. apply (bits_inj n); [lia|assumption..].
    + intros parts. rewrite !filter_In, in_map_iff. split.
      * intros [[(i & <- & Hi) HL] HT]. pose proof (bits_contiguous n i ltac:(lia)) as HC. split; [exact HC|].
        apply andb_true_iff in HL. destruct HL as [H1 H2]. apply Nat.leb_le in H1. apply Nat.ltb_lt in H2. split; [lia|].
        apply (lumpable_test_spec n); [lia|exact Hp|apply contiguous_partition; exact HC|exact HT].
      * intros (HC & HL & HLu). destruct (bits_complete n parts ltac:(lia) HC) as (i & Hi & E). split; [split|].
        -- exists i. split; [exact E|apply in_seq; lia].
        -- apply andb_true_iff. split; [apply Nat.leb_le|apply Nat.ltb_lt]; lia.
        -- apply (lumpable_test_spec n); [lia|exact Hp|apply contiguous_partition; exact HC|exact HLu].
Qed.
