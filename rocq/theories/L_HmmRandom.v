(** L_HmmRandom: lemmas about random hidden Markov models. *)
From Verif Require Export S_HmmRandom L_Gen1 L_Gen2 L_Gen3.
Close Scope R_scope.
Open Scope nat_scope.
Open Scope res_scope.

Lemma cget_cmk2 r k f i j : i < r -> j < k -> cget (cmk2 r k f) i j = f i j.
Proof. intros Hi Hj. unfold cget, cmk2. rewrite tab_nth by exact Hi. rewrite tab_nth by exact Hj. reflexivity. Qed.

Section HR.
Variables (r k zeros : nat) (mask : list (list cell)) (d : draws).
Hypothesis Hmask : mask_ok2 r k mask = true.
Let full := full_row k mask.
Let m1 := completed r k mask.
Let pcol i := nth (dr_pick d i) (nan_cols k m1 i) 0.
Let m2 := cmk2 r k (fun i j => if negb (full i) && Nat.eqb j (pcol i) then CInf else cget mask i j).
Let unassigned := flat_map (fun i => map (fun j => (i, j)) (nan_cols k m2 i)) (seq 0 r).
Let zero_cells := map (fun x => nth x unassigned (0, 0)) (firstn zeros (dr_perm d)).
Let zc i j := existsb (fun c => Nat.eqb (fst c) i && Nat.eqb (snd c) j) zero_cells.
Let m3 := cmk2 r k (fun i j => if zc i j then CVal 0q else match cget m2 i j with CInf => CNan | c => c end).

Lemma hmask_cell i j : i < r -> j < k -> match cget mask i j with CNan => True | CInf => False | CVal x => (0 <= x <= 1)%Qc end.
Proof.
  clear m3 zc zero_cells unassigned m2 pcol. intros Hi Hj. unfold mask_ok2 in Hmask. apply andb_true_iff in Hmask. destruct Hmask as [H _].
  apply andb_true_iff in H. destruct H as [H H3]. apply andb_true_iff in H. destruct H as [H1 H2].
  apply Nat.eqb_eq in H1. rewrite forallb_forall in H2, H3.
  assert (I1 : In (nth i mask []) mask) by (apply nth_In; lia).
  assert (L := H2 _ I1). apply Nat.eqb_eq in L. specialize (H3 _ I1). rewrite forallb_forall in H3.
  assert (I2 : In (cget mask i j) (nth i mask [])) by (apply nth_In; lia).
  specialize (H3 _ I2). destruct (cget mask i j); [exact I|discriminate|apply in01_true; exact H3].
Qed.
Lemma hmask_le1 i : i < r -> (sumn k (fun j => cval (cget mask i j)) <= 1)%Qc.
Proof.
  clear m3 zc zero_cells unassigned m2 pcol. intros Hi. unfold mask_ok2 in Hmask. apply andb_true_iff in Hmask. destruct Hmask as [_ H].
  rewrite forallb_forall in H. apply Qcleb_le, H. apply in_seq; lia.
Qed.
Lemma hmask_sum i : mask_sum k (mval mask) i = sumn k (fun j => cval (cget mask i j)).
Proof. unfold mask_sum, mval. apply sumn_ext. intros j _. destruct (cget mask i j); reflexivity. Qed.
Lemma hfull_eq i : full i = row_complete k (mval mask) i.
Proof. unfold full, full_row, row_complete, isclose. rewrite hmask_sum. f_equal. Qed.
Lemma hnan_free i j : i < r -> j < k -> is_nan (cget mask i j) = match mval mask i j with None => true | Some _ => false end.
Proof. clear m3 zc zero_cells unassigned m2 pcol. intros Hi Hj. assert (H := hmask_cell i j Hi Hj). unfold mval. destruct (cget mask i j); try reflexivity. contradiction. Qed.
Lemma hm1_cell i j : i < r -> j < k -> cget m1 i j = if is_nan (cget mask i j) && full i then CVal 0q else cget mask i j.
Proof. apply cget_cmk2. Qed.
Lemma hnan_cols1 i : i < r -> length (nan_cols k m1 i) = if full i then 0 else free_cells k (mval mask) i.
Proof.
  clear m3 zc zero_cells unassigned m2 pcol. intros Hi. unfold nan_cols, free_cells. destruct (full i) eqn:F.
  - rewrite (filter_ext_in _ (fun _ => false)); [induction (seq 0 k); [reflexivity|assumption]|].
    intros j Hj. apply in_seq in Hj. rewrite hm1_cell, F by lia. rewrite andb_true_r.
    destruct (is_nan (cget mask i j)) eqn:E; [reflexivity|]. exact E.
  - f_equal. apply filter_ext_in. intros j Hj. apply in_seq in Hj. rewrite hm1_cell, F, andb_false_r by lia.
    apply hnan_free; lia.
Qed.

Hypothesis Hfree : forall i, i < r -> full i = true \/ 0 < length (nan_cols k m1 i).
Hypothesis Hpick : forall i, i < r -> full i = false -> dr_pick d i < free_cells k (mval mask) i.

Lemma hpcol_spec i : i < r -> full i = false -> pcol i < k /\ is_nan (cget mask i (pcol i)) = true.
Proof.
  intros Hi F. assert (H : In (pcol i) (nan_cols k m1 i)) by (unfold pcol; apply nth_In; rewrite hnan_cols1, F by exact Hi; apply Hpick; assumption).
  apply filter_In in H. destruct H as [H1 H2]. apply in_seq in H1. split; [lia|]. rewrite hm1_cell, F, andb_false_r in H2 by lia. exact H2.
Qed.
Lemma hm2_cell i j : i < r -> j < k -> cget m2 i j = if negb (full i) && Nat.eqb j (pcol i) then CInf else cget mask i j.
Proof. apply cget_cmk2. Qed.
Lemma hnan_cols2 i : i < r -> length (nan_cols k m2 i) = if full i then free_cells k (mval mask) i else free_cells k (mval mask) i - 1.
Proof.
  intros Hi. destruct (full i) eqn:F.
  - unfold nan_cols, free_cells. f_equal. apply filter_ext_in. intros j Hj. apply in_seq in Hj. rewrite hm2_cell, F by lia. cbn [negb andb]. apply hnan_free; lia.
  - destruct (hpcol_spec i Hi F) as [P1 P2].
    assert (E : free_cells k (mval mask) i = length (filter (fun j => is_nan (cget mask i j)) (seq 0 k))).
    { unfold free_cells. f_equal. apply filter_ext_in. intros j Hj. apply in_seq in Hj. symmetry. apply hnan_free; lia. }
    rewrite E. rewrite (filter_split_one _ _ (pcol i)); [|apply seq_NoDup|apply in_seq; lia|exact P2].
    rewrite Nat.sub_succ, Nat.sub_0_r. unfold nan_cols. f_equal. apply filter_ext_in. intros j Hj. apply in_seq in Hj.
    rewrite hm2_cell, F by lia. cbn [negb andb]. destruct (Nat.eqb j (pcol i)); cbn; [rewrite andb_false_r|rewrite andb_true_r]; reflexivity.
Qed.
Lemma hunassigned_length : capacity r k (mval mask) <= length unassigned /\
  ((forall i, i < r -> full i = false) -> length unassigned = capacity r k (mval mask)).
Proof.
  unfold unassigned, capacity. rewrite flat_map_length.
  assert (G : forall l, (forall i, In i l -> i < r) ->
    list_sum (map (fun i => if row_complete k (mval mask) i then 0 else free_cells k (mval mask) i - 1) l) <= list_sum (map (fun x => length (map (fun j => (x, j)) (nan_cols k m2 x))) l) /\
    ((forall i, i < r -> full i = false) -> list_sum (map (fun x => length (map (fun j => (x, j)) (nan_cols k m2 x))) l) = list_sum (map (fun i => if row_complete k (mval mask) i then 0 else free_cells k (mval mask) i - 1) l))).
  { induction l as [|i l IH]; intros Hl; [split; [apply le_n|reflexivity]|]. cbn [map list_sum fold_right]. destruct (IH (fun x Hx => Hl x (or_intror Hx))) as (I1 & I2).
    assert (Hi := Hl i (or_introl eq_refl)). rewrite map_length, (hnan_cols2 i Hi), <- hfull_eq. unfold list_sum in *. split.
    - destruct (full i); lia.
    - intros Hf. rewrite (Hf i Hi), (I2 Hf). reflexivity. }
  apply G. intros i Hi. apply in_seq in Hi. lia.
Qed.
Lemma hunassigned_In i j : In (i, j) unassigned <-> i < r /\ j < k /\ is_nan (cget m2 i j) = true.
Proof.
  unfold unassigned. rewrite in_flat_map. split.
  - intros (x & Hx & H). apply in_map_iff in H. destruct H as (y & E & Hy). inversion E; subst.
    apply filter_In in Hy. destruct Hy as [Hy1 Hy2]. apply in_seq in Hx, Hy1. repeat split; try lia. exact Hy2.
  - intros (Hi & Hj & H). exists i. split; [apply in_seq; lia|]. apply in_map_iff. exists j. split; [reflexivity|].
    apply filter_In. split; [apply in_seq; lia|exact H].
Qed.
Lemma hunassigned_NoDup : NoDup unassigned.
Proof. apply NoDup_pairs; [apply seq_NoDup|]. intros i _. apply NoDup_filter, seq_NoDup. Qed.
Lemma required_eq : zeros_required r k mask = Z.of_nat (capacity r k (mval mask)).
Proof.
  clear m3 zc zero_cells unassigned m2 pcol Hpick. unfold zeros_required, capacity. rewrite flat_map_length.
  assert (G : forall l, (forall i, In i l -> i < r) ->
    list_sum (map (fun x => length (nan_cols k (completed r k mask) x)) l) =
    list_sum (map (fun i => if row_complete k (mval mask) i then 0 else free_cells k (mval mask) i - 1) l) + length (filter (fun i => negb (full_row k mask i)) l)).
  { induction l as [|i l IH]; intros Hl; simpl; [reflexivity|].
    rewrite IH by (intros; apply Hl; right; assumption). assert (Hi := Hl i (or_introl eq_refl)).
    rewrite <- hfull_eq. assert (E := hnan_cols1 i Hi). fold m1. assert (E2 := Hfree i Hi). fold (full i). destruct (full i); cbn [negb length]; [lia|].
    rewrite E. destruct E2; [discriminate|]. lia. }
  rewrite (G (seq 0 r)) by (intros i Hi; apply in_seq in Hi; lia). lia.
Qed.

Hypothesis Hzeros : zeros <= capacity r k (mval mask).
Hypothesis Hperm : Permutation (dr_perm d) (seq 0 (capacity r k (mval mask))).

Lemma hperm_lt x : In x (dr_perm d) -> x < length unassigned.
Proof. intros H. apply (Permutation_in _ Hperm) in H. apply in_seq in H. pose proof (proj1 hunassigned_length). lia. Qed.
Lemma hzero_cells_In c : In c zero_cells -> In c unassigned.
Proof.
  unfold zero_cells. intros H. apply in_map_iff in H. destruct H as (x & <- & Hx). apply nth_In, hperm_lt.
  rewrite <- (firstn_skipn zeros (dr_perm d)). apply in_or_app; left; exact Hx.
Qed.
Lemma hzero_cells_NoDup : NoDup zero_cells.
Proof.
  unfold zero_cells. apply NoDup_map_inj.
  - intros a b Ha Hb E. assert (Ha' : In a (dr_perm d)) by (rewrite <- (firstn_skipn zeros (dr_perm d)); apply in_or_app; left; exact Ha).
    assert (Hb' : In b (dr_perm d)) by (rewrite <- (firstn_skipn zeros (dr_perm d)); apply in_or_app; left; exact Hb).
    apply (proj1 (NoDup_nth unassigned (0, 0)) hunassigned_NoDup a b); [apply hperm_lt; exact Ha'|apply hperm_lt; exact Hb'|exact E].
  - assert (H : NoDup (dr_perm d)) by (eapply Permutation_NoDup; [apply Permutation_sym, Hperm|apply seq_NoDup]).
    rewrite <- (firstn_skipn zeros (dr_perm d)) in H. revert H. generalize (firstn zeros (dr_perm d)), (skipn zeros (dr_perm d)).
    induction l as [|x l IH]; intros l0 H; [constructor|]. inversion H; subst. constructor; [|eapply IH; eassumption].
    intros K. apply H2. apply in_or_app; left; exact K.
Qed.
Lemma hzero_cells_length : length zero_cells = zeros.
Proof. unfold zero_cells. rewrite map_length, firstn_length, (Permutation_length Hperm), seq_length. lia. Qed.
Lemma hzc_In i j : zc i j = true <-> In (i, j) zero_cells.
Proof.
  unfold zc. rewrite existsb_exists. split.
  - intros ((a, b) & H & E). apply andb_true_iff in E. destruct E as [E1 E2]. apply Nat.eqb_eq in E1, E2. cbn in *. subst; exact H.
  - intros H. exists (i, j). split; [exact H|]. cbn. rewrite !Nat.eqb_refl. reflexivity.
Qed.
Lemma hzero_free i j : In (i, j) zero_cells -> i < r /\ j < k /\ is_nan (cget mask i j) = true.
Proof.
  intros H. apply hzero_cells_In, hunassigned_In in H. destruct H as (Hi & Hj & Z). repeat split; try assumption.
  rewrite hm2_cell in Z by assumption. destruct (negb (full i) && Nat.eqb j (pcol i)); [discriminate|exact Z].
Qed.
Lemma hm3_cell i j : i < r -> j < k ->
  (is_nan (cget m3 i j) = true /\ is_nan (cget mask i j) = true /\ zc i j = false) \/
  (is_nan (cget m3 i j) = false /\ cget m3 i j = CVal (cval (cget mask i j)) /\ (is_nan (cget mask i j) = true -> zc i j = true)).
Proof.
  intros Hi Hj. unfold m3. rewrite cget_cmk2 by assumption. destruct (zc i j) eqn:Z.
  - right. split; [reflexivity|]. apply hzc_In, hzero_free in Z. destruct Z as (_ & _ & Z). destruct (cget mask i j); try discriminate. split; reflexivity.
  - rewrite hm2_cell by assumption. destruct (negb (full i) && Nat.eqb j (pcol i)) eqn:E.
    + left. apply andb_true_iff in E. destruct E as [E1 E2]. apply negb_true_iff in E1. apply Nat.eqb_eq in E2. subst j.
      destruct (hpcol_spec i Hi E1) as [_ P]. auto.
    + assert (MC := hmask_cell i j Hi Hj). destruct (cget mask i j) as [| |x]; [|contradiction|].
      * left; auto.
      * right; split; [reflexivity|]. split; [reflexivity|discriminate].
Qed.
Lemma hm3_picked i : i < r -> full i = false -> is_nan (cget m3 i (pcol i)) = true.
Proof.
  intros Hi F. destruct (hpcol_spec i Hi F) as [P1 P2]. destruct (hm3_cell i (pcol i) Hi P1) as [(E & _)|(_ & _ & E)]; [exact E|].
  specialize (E P2). apply hzc_In, hzero_cells_In, hunassigned_In in E. destruct E as (_ & _ & Z). rewrite hm2_cell, F, Nat.eqb_refl in Z by assumption. discriminate.
Qed.

Hypothesis Hdraw : forall i j, i < r -> j < k -> (0 < dr_value d i j)%Qc.
Let p := mk r k (fun i j => if is_nan (cget m3 i j) then dr_value d i j else cval (cget m3 i j)).
Let s i := sumn k (fun l => if is_nan (cget m3 i l) then mget p i l else 0q).
Let si i := sumn k (fun l => if is_nan (cget m3 i l) then 0q else mget p i l).
Let out := mk r k (fun i j => if Qcltb 0 (s i) && is_nan (cget m3 i j) then (mget p i j * ((1 - si i) / s i))%Qc else mget p i j).

Lemma hp_cell i j : i < r -> j < k -> mget p i j = if is_nan (cget m3 i j) then dr_value d i j else cval (cget mask i j).
Proof.
  intros Hi Hj. unfold p. rewrite mget_mk by assumption. destruct (hm3_cell i j Hi Hj) as [(E & _)|(E & E2 & _)]; rewrite E; [reflexivity|].
  rewrite E2. reflexivity.
Qed.
Lemma hsi_eq i : i < r -> si i = sumn k (fun j => cval (cget mask i j)).
Proof.
  intros Hi. unfold si. apply sumn_ext. intros j Hj. rewrite hp_cell by assumption.
  destruct (hm3_cell i j Hi Hj) as [(E & E2 & _)|(E & E2)]; rewrite E; [|reflexivity].
  destruct (cget mask i j); try discriminate. reflexivity.
Qed.
Lemma hs_pos i j : i < r -> j < k -> is_nan (cget m3 i j) = true -> (0 < s i)%Qc.
Proof.
  intros Hi Hj N. unfold s. apply (sumn_pos k _ j); [exact Hj| |].
  - rewrite hp_cell, N by assumption. apply Hdraw; assumption.
  - intros l Hl. destruct (is_nan (cget m3 i l)) eqn:E; [|discriminate]. rewrite hp_cell, E by assumption. apply Qclt_le_weak, Hdraw; assumption.
Qed.
Lemma hout_cell i j : i < r -> j < k ->
  mget out i j = if is_nan (cget m3 i j) then (dr_value d i j * ((1 - si i) / s i))%Qc else cval (cget mask i j).
Proof.
  intros Hi Hj. unfold out. rewrite mget_mk by assumption. rewrite hp_cell by assumption.
  destruct (is_nan (cget m3 i j)) eqn:E.
  - rewrite (proj2 (Qcltb_lt 0 (s i)) (hs_pos i j Hi Hj E)). reflexivity.
  - rewrite andb_false_r. reflexivity.
Qed.
Lemma hout_nonneg i j : i < r -> j < k -> (0 <= mget out i j)%Qc.
Proof.
  intros Hi Hj. rewrite hout_cell by assumption. destruct (is_nan (cget m3 i j)) eqn:E.
  - apply Qc_mul_nonneg; [apply Qclt_le_weak, Hdraw; assumption|]. apply Qc_div_nonneg; [|apply (hs_pos i j); assumption].
    rewrite hsi_eq by exact Hi. assert (L := hmask_le1 i Hi). qclra.
  - assert (M := hmask_cell i j Hi Hj). destruct (cget mask i j); cbn; [discriminate|discriminate|apply M].
Qed.
Lemma hout_sum i j : i < r -> j < k -> is_nan (cget m3 i j) = true -> sumn k (mget out i) = 1q.
Proof.
  intros Hi Hj N. rewrite (sumn_ext k _ (fun j => (if is_nan (cget m3 i j) then mget p i j else 0) * ((1 - si i) / s i) + (if is_nan (cget m3 i j) then 0 else mget p i j))%Qc).
  - rewrite sumn_plus, sumn_mul_r. fold (s i) (si i). field. apply Qc_lt_neq, (hs_pos i j); assumption.
  - intros l Hl. rewrite hout_cell, hp_cell by assumption. destruct (is_nan (cget m3 i l)); ring.
Qed.
Lemma hout_sum_full i : i < r -> sumn k (mget out i) = 1q \/ sumn k (mget out i) = mask_sum k (mval mask) i.
Proof.
  intros Hi. destruct (existsb (fun j => is_nan (cget m3 i j)) (seq 0 k)) eqn:E.
  - apply existsb_exists in E. destruct E as (j & Ij & N). apply in_seq in Ij. left. apply (hout_sum i j); [exact Hi|lia|exact N].
  - right. rewrite hmask_sum. apply sumn_ext. intros j Hj. rewrite hout_cell by assumption. destruct (is_nan (cget m3 i j)) eqn:N; [|reflexivity].
    assert (X : existsb (fun j => is_nan (cget m3 i j)) (seq 0 k) = true) by (apply existsb_exists; exists j; split; [apply in_seq; lia|exact N]). congruence.
Qed.
Lemma hout_agrees i j x : i < r -> j < k -> mval mask i j = Some x -> mget out i j = x.
Proof.
  intros Hi Hj H. rewrite hout_cell by assumption. unfold mval in H.
  destruct (hm3_cell i j Hi Hj) as [(_ & E & _)|(E & _)].
  - destruct (cget mask i j); discriminate.
  - rewrite E. destruct (cget mask i j); inversion H. reflexivity.
Qed.
Lemma hout_zeros : zeros <= free_zeros r k (mval mask) out.
Proof.
  rewrite <- hzero_cells_length. unfold free_zeros, count_cells2. apply NoDup_incl_length; [apply hzero_cells_NoDup|].
  intros (i, j) H. destruct (hzero_free i j H) as (Hi & Hj & M). apply filter_In. split.
  - apply in_prod; apply in_seq; lia.
  - cbn. assert (K := hnan_free i j Hi Hj). rewrite M in K. destruct (mval mask i j); [discriminate|]. apply Qceqb_eq. rewrite hout_cell by assumption.
    destruct (hm3_cell i j Hi Hj) as [(_ & _ & Z)|(E & _)]; [rewrite (proj2 (hzc_In i j) H) in Z; discriminate|]. rewrite E. destruct (cget mask i j); try discriminate. reflexivity.
Qed.
Lemma hout_zero_cell i j : i < r -> j < k -> full i = false -> mval mask i j = None -> mget out i j = 0q -> In (i, j) zero_cells.
Proof.
  intros Hi Hj Nf M H. assert (K := hnan_free i j Hi Hj). rewrite M in K.
  apply hzc_In. destruct (hm3_cell i j Hi Hj) as [(N & _ & _)|(_ & _ & Z)]; [|exact (Z K)]. exfalso.
  rewrite hout_cell, N in H by assumption. assert (D := Hdraw i j Hi Hj). assert (Sp := hs_pos i j Hi Hj N).
  assert (Lt : (si i < 1)%Qc).
  { rewrite hsi_eq by exact Hi. assert (L := hmask_le1 i Hi). apply Qcle_lt_or_eq in L. destruct L as [L|L]; [exact L|]. unfold full, full_row in Nf. rewrite L in Nf. vm_compute in Nf. discriminate. }
  assert (P0 : (0 < (1 - si i) / s i)%Qc) by (apply Qc_div_pos; [qclra|exact Sp]).
  assert (P1 : (0 < dr_value d i j * ((1 - si i) / s i))%Qc) by (apply Qc_mul_pos; assumption). rewrite H in P1. apply (Qclt_irr _ P1).
Qed.
Lemma hout_zeros_exact : (forall i, i < r -> full i = false) -> free_zeros r k (mval mask) out = zeros.
Proof.
  intros Nf. apply Nat.le_antisymm; [|apply hout_zeros]. rewrite <- hzero_cells_length. unfold free_zeros, count_cells2.
  apply NoDup_incl_length; [apply NoDup_filter; rewrite list_prod_flat; apply NoDup_pairs; [apply seq_NoDup|intros; apply seq_NoDup]|].
  intros (i, j) H. apply filter_In in H. destruct H as (I & H). cbn [fst snd] in H. apply in_prod_iff in I. destruct I as (Hi & Hj). apply in_seq in Hi, Hj.
  destruct (mval mask i j) eqn:M; [discriminate|]. apply Qceqb_eq in H. apply hout_zero_cell; [lia|lia|apply Nf; lia|exact M|exact H].
Qed.
Lemma hout_eq : process_matrix r k mask zeros d = Ok out.
Proof using Hfree.
  clear Hzeros. change ((if forallb (fun i => full i || Nat.ltb 0 (length (nan_cols k m1 i))) (seq 0 r) then Ok out else Err ValueErr) = Ok out).
  assert (F : forallb (fun i => full i || Nat.ltb 0 (length (nan_cols k m1 i))) (seq 0 r) = true).
  { apply forallb_forall. intros i Hi. apply in_seq in Hi. apply orb_true_iff. destruct (Hfree i ltac:(lia)); [left; assumption|right].
    apply Nat.ltb_lt; assumption. }
  rewrite F. reflexivity.
Qed.
Lemma hout_spec : follows_mask r k (mval mask) (Z.of_nat zeros) out.
Proof.
  split; [apply wf_mk|]. split; [exact hout_nonneg|]. split.
  - intros i Hi F. rewrite <- hfull_eq in F. destruct (hpcol_spec i Hi F) as (P1 & _). apply (hout_sum i (pcol i)); [exact Hi|exact P1|]. apply hm3_picked; assumption.
  - split; [intros i Hi _; apply hout_sum_full; exact Hi|]. split; [exact hout_agrees|]. split; [apply Nat2Z.inj_le, hout_zeros|].
    intros Nf. f_equal. apply hout_zeros_exact. intros i Hi. rewrite hfull_eq. apply Nf. exact Hi.
Qed.
End HR.

Lemma process_inv r k mask zeros d M : process_matrix r k mask zeros d = Ok M ->
  forall i, i < r -> full_row k mask i = true \/ 0 < length (nan_cols k (completed r k mask) i).
Proof.
  unfold process_matrix. destruct (forallb (fun i => full_row k mask i || Nat.ltb 0 (length (nan_cols k (completed r k mask) i))) (seq 0 r)) eqn:F; [|discriminate].
  intros _ i Hi. rewrite forallb_forall in F. specialize (F i ltac:(apply in_seq; lia)). apply orb_true_iff in F. destruct F as [F|F]; [left; exact F|right; apply Nat.ltb_lt; exact F].
Qed.
Lemma pick_of r k mask d : mask_ok2 r k mask = true -> (forall i, i < r -> full_row k mask i = true \/ 0 < length (nan_cols k (completed r k mask) i)) -> draws_ok2 r k (mval mask) d ->
  forall i, i < r -> full_row k mask i = false -> dr_pick d i < free_cells k (mval mask) i.
Proof.
  intros M F (D1 & _) i Hi Fi. assert (Fr := Fi). rewrite (hfull_eq k mask) in Fr. apply D1; [exact Hi|exact Fr|].
  destruct (F i Hi) as [F'|F']; [congruence|]. rewrite (hnan_cols1 r k mask M i Hi), Fi in F'. exact F'.
Qed.
Lemma process_spec r k mask zeros d M : mask_ok2 r k mask = true -> (0 <= zeros)%Z -> (zeros <= zeros_required r k mask)%Z -> process_matrix r k mask (Z.to_nat zeros) d = Ok M ->
  draws_ok2 r k (mval mask) d -> follows_mask r k (mval mask) zeros M.
Proof.
  intros Hm Z0 Hz R D. pose proof (process_inv _ _ _ _ _ _ R) as F. pose proof (pick_of r k mask d Hm F D) as Pk. destruct D as (_ & D2 & D3).
  rewrite (required_eq r k mask Hm F) in Hz.
  assert (D3' : forall i j, i < r -> j < k -> (0 < dr_value d i j)%Qc) by (intros; apply D3; assumption).
  pose proof (hout_eq r k (Z.to_nat zeros) mask d F) as E. rewrite E in R. injection R as <-.
  assert (Hz' : Z.to_nat zeros <= capacity r k (mval mask)) by lia.
  pose proof (hout_spec r k (Z.to_nat zeros) mask d Hm Pk Hz' D2 D3') as S. rewrite Z2Nat.id in S by exact Z0. exact S.
Qed.
Lemma gen_names st n p l : 2 <= n -> gen_states st n (create_labels n p) = Ok l -> names_ok n l /\ l = match st with Some l' => l' | None => create_labels n p end.
Proof.
  intros Hn. destruct st as [l'|]; simpl.
  - intros H. apply validate_labels_input_ok in H. destruct H as (-> & _ & H). auto.
  - intros H; inversion H; subst. split; [apply create_labels_ok|reflexivity].
Qed.
Lemma no_common states symbols : negb (existsb (fun s => mem_str s symbols) states) = true <-> forall s, In s states -> ~ In s symbols.
Proof.
  rewrite negb_true_iff. split.
  - intros H s I1 I2. assert (X : existsb (fun s => mem_str s symbols) states = true); [|congruence].
    apply existsb_exists. exists s. split; [exact I1|]. apply existsb_exists. exists s. split; [exact I2|]. apply String.eqb_refl.
  - intros H. apply not_true_is_false. intros Z. apply existsb_exists in Z. destruct Z as [s [A B]]. unfold mem_str in B. apply existsb_exists in B. destruct B as [y [B C]]. apply String.eqb_eq in C. subst y. apply (H s A B).
Qed.
Lemma hmm_random_spec n k st pz pm sy ez em dp de h : hmm_random n k st pz pm sy ez em dp de = Ok h ->
  let N := Z.to_nat n in let K := Z.to_nat k in
  let vp := mval (random_mask N N pm) in let ve := mval (random_mask N K em) in
  draws_ok2 N N vp dp -> draws_ok2 N K ve de ->
  2 <= N /\ 2 <= K /\ follows_mask N N vp pz (h_p h) /\ follows_mask N K ve ez (h_e h) /\
  names_ok N (h_states h) /\ h_states h = match st with Some l => l | None => map (fun i => String.append "P" (dec i)) (seq 1 N) end /\
  names_ok K (h_symbols h) /\ h_symbols h = match sy with Some l => l | None => map (fun i => String.append "E" (dec i)) (seq 1 K) end /\
  (forall s, In s (h_states h) -> ~ In s (h_symbols h)).
Proof.
  unfold hmm_random. destruct (Z.leb_spec 2 n) as [Ln|]; [|discriminate]. destruct (Z.leb_spec 2 k) as [Lk|]; [|discriminate]. cbv iota.
  set (N := Z.to_nat n). set (K := Z.to_nat k). cbv zeta.
  destruct (gen_states st N _) as [ls|] eqn:E1; [|discriminate]. cbn [bind]. destruct (Z.leb_spec 0 pz) as [Pz|]; [|discriminate]. cbv iota.
  destruct (mask_ok2 N N (random_mask N N pm)) eqn:M1; [|discriminate]. cbv iota.
  destruct (gen_states sy K _) as [ly|] eqn:E2; [|discriminate]. cbn [bind]. destruct (Z.leb_spec 0 ez) as [Ez|]; [|discriminate]. cbv iota.
  destruct (mask_ok2 N K (random_mask N K em)) eqn:M2; [|discriminate]. cbv iota.
  destruct (Z.leb_spec pz (zeros_required N N (random_mask N N pm))) as [Rp|]; [|discriminate]. destruct (Z.leb_spec ez (zeros_required N K (random_mask N K em))) as [Re|]; [|discriminate]. cbv iota.
  destruct (process_matrix N N (random_mask N N pm) (Z.to_nat pz) dp) as [P|] eqn:P1; [|discriminate]. cbn [bind].
  destruct (process_matrix N K (random_mask N K em) (Z.to_nat ez) de) as [E|] eqn:P2; [|discriminate]. cbn [bind].
  unfold hmm_init. destruct (negb (existsb (fun s => mem_str s ly) ls)) eqn:C; [|discriminate]. cbv iota. intros H D1 D2. injection H as <-. cbn [h_p h_e h_states h_symbols].
  assert (LN : 2 <= N) by (unfold N; lia). assert (LK : 2 <= K) by (unfold K; lia).
  destruct (gen_names _ _ _ _ LN E1) as (A1 & A2). destruct (gen_names _ _ _ _ LK E2) as (B1 & B2).
  split; [assumption|]. split; [assumption|]. split; [apply (process_spec _ _ _ _ _ _ M1 Pz Rp P1 D1)|]. split; [apply (process_spec _ _ _ _ _ _ M2 Ez Re P2 D2)|].
  split; [exact A1|]. split; [exact A2|]. split; [exact B1|]. split; [exact B2|]. apply no_common. exact C.
Qed.
Lemma process_total r k mask zeros d : mask_ok2 r k mask = true -> (0 <= zeros <= Z.of_nat (capacity r k (mval mask)))%Z ->
  (forall i, i < r -> row_complete k (mval mask) i = true \/ 0 < free_cells k (mval mask) i) ->
  Z.leb zeros (zeros_required r k mask) = true /\ exists M, process_matrix r k mask (Z.to_nat zeros) d = Ok M.
Proof.
  intros Hm Hz Hf.
  assert (F : forall i, i < r -> full_row k mask i = true \/ 0 < length (nan_cols k (completed r k mask) i)).
  { intros i Hi. destruct (Hf i Hi) as [G|G]; [left; rewrite (hfull_eq k mask); exact G|].
    destruct (full_row k mask i) eqn:E; [left; reflexivity|right]. rewrite (hnan_cols1 r k mask Hm i Hi), E. exact G. }
  rewrite (required_eq r k mask Hm F). split; [apply Z.leb_le; lia|]. eexists. apply (hout_eq r k (Z.to_nat zeros) mask d F).
Qed.
Lemma mask_ok2_iff r k m : mask_ok2 r k m = true <-> mask_valid r k m.
Proof.
  unfold mask_ok2, mask_valid. rewrite !andb_true_iff, Nat.eqb_eq, mask_cells_iff, !forallb_forall. split.
  - intros (((A & B) & C) & D). split; [exact A|]. split; [intros x Hr; apply Nat.eqb_eq, B, Hr|]. split; [exact C|].
    intros i Hi. rewrite mask_sum_cval. apply Qcleb_le, D, in_seq. lia.
  - intros (A & B & C & D). split; [split; [split; [exact A|intros x Hr; apply Nat.eqb_eq, B, Hr]|exact C]|].
    intros i Hi. apply in_seq in Hi. apply Qcleb_le. rewrite <- mask_sum_cval. apply D. lia.
Qed.
Lemma given_mask_ok2 r k mask : given_mask_valid r k mask -> mask_ok2 r k (random_mask r k mask) = true.
Proof.
  intros H. apply mask_ok2_iff. destruct mask as [m|]; [exact H|]. unfold random_mask, cmk2. split; [apply tab_length|].
  split; [intros x Hr; apply in_tab in Hr; destruct Hr as (i & _ & ->); apply tab_length|]. split; [apply mask_cells_iff, free_mask_ok|].
  intros i Hi. rewrite mask_sum_cval. replace (sumn k _) with 0q; [discriminate|]. symmetry. apply sumn_0. intros j Hj. unfold cget. rewrite tab_nth by exact Hi. rewrite tab_nth by exact Hj. reflexivity.
Qed.
Lemma hmm_random_masks n k st pz pm sy ez em dp de h : hmm_random n k st pz pm sy ez em dp de = Ok h ->
  given_mask_valid (Z.to_nat n) (Z.to_nat n) pm /\ given_mask_valid (Z.to_nat n) (Z.to_nat k) em /\ (0 <= pz)%Z /\ (0 <= ez)%Z.
Proof.
  unfold hmm_random. destruct (Z.leb_spec 2 n) as [Ln|]; [|discriminate]. destruct (Z.leb_spec 2 k) as [Lk|]; [|discriminate]. cbv iota.
  set (N := Z.to_nat n). set (K := Z.to_nat k). cbv zeta.
  destruct (gen_states st N _) as [ls|] eqn:E1; [|discriminate]. cbn [bind]. destruct (Z.leb_spec 0 pz) as [Pz|]; [|discriminate]. cbv iota.
  destruct (mask_ok2 N N (random_mask N N pm)) eqn:M1; [|discriminate]. cbv iota.
  destruct (gen_states sy K _) as [ly|] eqn:E2; [|discriminate]. cbn [bind]. destruct (Z.leb_spec 0 ez) as [Ez|]; [|discriminate]. cbv iota.
  destruct (mask_ok2 N K (random_mask N K em)) eqn:M2; [|discriminate]. intros _. apply mask_ok2_iff in M1, M2. split; [destruct pm; [exact M1|exact I]|]. split; [destruct em; [exact M2|exact I]|]. split; assumption.
Qed.
Lemma hmm_random_total n k pz pm ez em dp de :
  let N := Z.to_nat n in let K := Z.to_nat k in
  let vp := mval (random_mask N N pm) in let ve := mval (random_mask N K em) in
  (2 <= n)%Z -> (2 <= k)%Z -> given_mask_valid N N pm -> given_mask_valid N K em ->
  (0 <= pz <= Z.of_nat (capacity N N vp))%Z -> (0 <= ez <= Z.of_nat (capacity N K ve))%Z ->
  (forall i, i < N -> row_complete N vp i = true \/ 0 < free_cells N vp i) -> (forall i, i < N -> row_complete K ve i = true \/ 0 < free_cells K ve i) ->
  exists h, hmm_random n k None pz pm None ez em dp de = Ok h.
Proof.
  cbv zeta. intros Ln Lk M1 M2 Hp He F1 F2. apply given_mask_ok2 in M1, M2. unfold hmm_random. destruct (Z.leb_spec 2 n); [|lia]. destruct (Z.leb_spec 2 k); [|lia]. cbn [gen_states bind].
  destruct (Z.leb_spec 0 pz); [|lia]. destruct (Z.leb_spec 0 ez); [|lia]. rewrite M1, M2.
  destruct (process_total _ _ _ _ dp M1 Hp F1) as (A1 & P & A2). destruct (process_total _ _ _ _ de M2 He F2) as (B1 & E & B2). rewrite A1, B1, A2, B2. cbn [bind]. unfold hmm_init.
  assert (C : negb (existsb (fun s => mem_str s (create_labels (Z.to_nat k) "E")) (create_labels (Z.to_nat n) "P")) = true).
  { apply no_common. intros s I1 I2. unfold create_labels in I1, I2. apply in_map_iff in I1, I2. destruct I1 as (x & <- & _). destruct I2 as (y & Q & _). discriminate Q. }
  rewrite C. eexists. reflexivity.
Qed.
Lemma follows_stochastic r k val z M : follows_mask r k val z M -> (forall i, i < r -> row_complete k val i = true -> mask_sum k val i = 1q) -> row_stochastic r k M.
Proof.
  intros (W & Nn & S1 & S2 & _) Hc. split; [exact W|]. split; [exact Nn|]. intros i Hi. destruct (row_complete k val i) eqn:C; [|apply S1; assumption].
  destruct (S2 i Hi C) as [S|S]; [exact S|]. exact (eq_trans S (Hc i Hi C)).
Qed.
Lemma hmm_random_stochastic n k st pz pm sy ez em dp de h : hmm_random n k st pz pm sy ez em dp de = Ok h ->
  let N := Z.to_nat n in let K := Z.to_nat k in
  let vp := mval (random_mask N N pm) in let ve := mval (random_mask N K em) in
  draws_ok2 N N vp dp -> draws_ok2 N K ve de ->
  (forall i, i < N -> row_complete N vp i = true -> mask_sum N vp i = 1q) -> (forall i, i < N -> row_complete K ve i = true -> mask_sum K ve i = 1q) ->
  stochastic N (h_p h) /\ row_stochastic N K (h_e h).
Proof.
  cbv zeta. intros H D1 D2 C1 C2. destruct (hmm_random_spec _ _ _ _ _ _ _ _ _ _ _ H D1 D2) as (L1 & L2 & F1 & F2 & _).
  split; [apply (follows_stochastic _ _ _ _ _ F1 C1)|apply (follows_stochastic _ _ _ _ _ F2 C2)].
Qed.

Definition slots r k mask d : list (nat * nat) :=
  let m2 := cmk2 r k (fun i j => if negb (full_row k mask i) && Nat.eqb j (nth (dr_pick d i) (nan_cols k (completed r k mask) i) 0) then CInf else cget mask i j) in
  flat_map (fun i => map (fun j => (i, j)) (nan_cols k m2 i)) (seq 0 r).
Lemma process_zero_cell r k mask zeros d M i j : mask_ok2 r k mask = true -> process_matrix r k mask zeros d = Ok M -> draws_ok2 r k (mval mask) d -> zeros <= capacity r k (mval mask) ->
  i < r -> j < k -> full_row k mask i = false -> mval mask i j = None -> mget M i j = 0q -> In (i, j) (map (fun x => nth x (slots r k mask d) (0, 0)) (firstn zeros (dr_perm d))).
Proof.
  intros Hm R D Hz Hi Hj Nf Nn Z. pose proof (process_inv _ _ _ _ _ _ R) as F. pose proof (pick_of r k mask d Hm F D) as Pk. destruct D as (_ & D2 & D3).
  assert (D3' : forall i j, i < r -> j < k -> (0 < dr_value d i j)%Qc) by (intros; apply D3; assumption).
  pose proof (hout_eq r k zeros mask d F) as E. rewrite E in R. injection R as <-.
  exact (hout_zero_cell r k zeros mask d Hm Pk Hz D2 D3' i j Hi Hj Nf Nn Z).
Qed.

(** ** The requested zeros can end up in complete rows *)
Definition maskR : list (list cell) := [[CVal 1q; CNan]; [CNan; CNan]].
Definition freeR : list (list cell) := [[CNan; CNan]; [CNan; CNan]].
Lemma zeros_misplaced dp de : draws_ok2 2 2 (mval maskR) dp -> exists h, hmm_random 2 2 None 1 (Some maskR) None 0 None dp de = Ok h /\
  mget (h_p h) 1 0 <> 0q /\ mget (h_p h) 1 1 <> 0q.
Proof.
  intros D.
  assert (Hm : mask_ok2 2 2 maskR = true) by (vm_compute; reflexivity).
  assert (He : exists h, hmm_random 2 2 None 1 (Some maskR) None 0 None dp de = Ok h).
  { assert (C1 : capacity 2 2 (mval maskR) = 1) by (vm_compute; reflexivity).
    assert (C2 : capacity 2 2 (mval (random_mask 2 2 None)) = 2) by (vm_compute; reflexivity).
    assert (M2 : mask_ok2 2 2 (random_mask 2 2 None) = true) by (vm_compute; reflexivity).
    assert (R0 : row_complete 2 (mval maskR) 0 = true) by (vm_compute; reflexivity).
    assert (R1 : free_cells 2 (mval maskR) 1 = 2) by (vm_compute; reflexivity).
    assert (E0 : free_cells 2 (mval (random_mask 2 2 None)) 0 = 2) by (vm_compute; reflexivity).
    assert (E1 : free_cells 2 (mval (random_mask 2 2 None)) 1 = 2) by (vm_compute; reflexivity).
    clear D. apply (hmm_random_total 2 2 1 (Some maskR) 0 None dp de); change (Z.to_nat 2) with 2.
    - lia.
    - lia.
    - apply mask_ok2_iff. exact Hm.
    - exact I.
    - change (random_mask 2 2 (Some maskR)) with maskR. rewrite C1. lia.
    - rewrite C2. lia.
    - change (random_mask 2 2 (Some maskR)) with maskR. intros [|[|i]] Hi; [left; exact R0|right; rewrite R1; lia|lia].
    - intros [|[|i]] Hi; [right; rewrite E0; lia|right; rewrite E1; lia|lia]. }
  destruct He as (h & He). exists h. split; [exact He|].
  unfold hmm_random in He. change (Z.leb 2 2) with true in He. cbv iota in He. cbn [gen_states bind random_mask] in He. change (Z.to_nat 2) with 2 in He. rewrite Hm in He.
  change (Z.leb 0 1) with true in He. change (Z.leb 0 0) with true in He. change (Z.to_nat 1) with 1 in He. cbv iota in He.
  destruct (mask_ok2 2 2 (cmk2 _ _ _)) in He; [|discriminate]. destruct (Z.leb 1 (zeros_required 2 2 maskR)) in He; [|discriminate]. destruct (Z.leb 0 (zeros_required _ _ _)) in He; [|discriminate].
  destruct (process_matrix 2 2 maskR 1 dp) as [P|] eqn:R; [|discriminate]. cbn [bind] in He. destruct (process_matrix 2 2 _ _ de) as [E|]; [|discriminate]. cbn [bind] in He.
  unfold hmm_init in He. destruct (negb _) in He; [|discriminate]. injection He as <-. cbn [h_p].
  assert (Cap : capacity 2 2 (mval maskR) = 1) by (vm_compute; reflexivity).
  assert (Pm : dr_perm dp = [0]) by (destruct D as (_ & D2 & _); rewrite Cap in D2; apply Permutation_sym, Permutation_length_1_inv in D2; exact D2).
  assert (Nf : full_row 2 maskR 1 = false) by (vm_compute; reflexivity).
  assert (Sl : forall pk, exists t, nan_cols 2 (cmk2 2 2 (fun i j => if negb (full_row 2 maskR i) && Nat.eqb j (pk i) then CInf else cget maskR i j)) 0 = 1 :: t).
  { intros pk. exists []. assert (F0 : full_row 2 maskR 0 = true) by (vm_compute; reflexivity). unfold nan_cols. cbn [seq filter]. rewrite !cget_cmk2 by lia. rewrite F0. reflexivity. }
  assert (N0 : nth 0 (slots 2 2 maskR dp) (0, 0) = (0, 1)).
  { unfold slots. destruct (Sl (fun i => nth (dr_pick dp i) (nan_cols 2 (completed 2 2 maskR) i) 0)) as (t & Et). cbn [seq flat_map]. rewrite Et. reflexivity. }
  assert (Hc : 1 <= capacity 2 2 (mval maskR)) by lia.
  assert (G : forall j, j < 2 -> mget P 1 j <> 0q).
  { intros j Hj Z. assert (Nn : mval maskR 1 j = None) by (destruct j as [|[|]]; [reflexivity|reflexivity|lia]).
    pose proof (process_zero_cell 2 2 maskR 1 dp P 1 j Hm R D Hc ltac:(lia) Hj Nf Nn Z) as I. rewrite Pm in I. cbn [firstn map] in I. rewrite N0 in I. destruct I as [I|[]]. discriminate I. }
  split; apply G; lia.
Qed.
Lemma zeros_refuted dp de : draws_ok2 2 2 (mval maskR) dp -> exists h, hmm_random 2 2 None 1 (Some maskR) None 0 None dp de = Ok h /\ incomplete_zeros 2 2 (mval maskR) (h_p h) = 0.
Proof.
  intros D. destruct (zeros_misplaced dp de D) as (h & E & Z0 & Z1). exists h. split; [exact E|].
  assert (F0 : row_complete 2 (mval maskR) 0 = true) by (vm_compute; reflexivity).
  assert (F1 : row_complete 2 (mval maskR) 1 = false) by (vm_compute; reflexivity).
  apply Qceqb_neq in Z0, Z1. unfold incomplete_zeros, count_cells2. cbn [seq list_prod map app filter fst snd]. rewrite F0, F1. cbn [negb andb].
  change (mval maskR 1 0) with (@None Qc). change (mval maskR 1 1) with (@None Qc). cbv iota. rewrite Z0, Z1. reflexivity.
Qed.
Definition drawsR : draws := mkdraws (fun _ => 0) [0] (fun _ _ => Q2Qc (1 # 2)).
Definition drawsE : draws := mkdraws (fun _ => 1) [1; 0] (fun i j => Q2Qc (1 # Pos.of_nat (2 + i + j))).
Lemma drawsR_ok : draws_ok2 2 2 (mval maskR) drawsR.
Proof.
  split; [|split].
  - intros [|[|i]] Hi C F; [vm_compute in C; discriminate|vm_compute; lia|lia].
  - vm_compute. apply Permutation_refl.
  - intros i j _ _. cbn [drawsR dr_value]. split; apply Qcltb_lt; vm_compute; reflexivity.
Qed.
Lemma drawsE_ok : draws_ok2 2 2 (mval freeR) drawsE.
Proof.
  split; [|split].
  - intros [|[|i]] Hi C F; [vm_compute; lia|vm_compute; lia|lia].
  - assert (C : capacity 2 2 (mval freeR) = 2) by (vm_compute; reflexivity). rewrite C. apply perm_swap.
  - intros [|[|i]] [|[|j]] Hi Hj; try lia; split; apply Qcltb_lt; vm_compute; reflexivity.
Qed.
Lemma hmm_random_example : exists h, hmm_random 2 2 None 1 (Some maskR) (Some ["a"; "b"]%string) 1 (Some freeR) drawsR drawsE = Ok h /\
  draws_ok2 2 2 (mval (random_mask 2 2 (Some maskR))) drawsR /\ draws_ok2 2 2 (mval (random_mask 2 2 (Some freeR))) drawsE /\ h_symbols h = ["a"; "b"]%string /\ mget (h_e h) 0 0 <> 0q.
Proof.
  eexists. split; [vm_compute; reflexivity|]. split; [exact drawsR_ok|]. split; [exact drawsE_ok|]. split; [reflexivity|]. apply Qceqb_neq; vm_compute; reflexivity.
Qed.
