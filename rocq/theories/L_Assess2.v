(** L_Assess2: proofs about assess_stationarity. *)
From Verif Require Export L_Assess.
From Coq Require Import Reals Qreals Lra.
Close Scope Q_scope. Close Scope R_scope.
Open Scope nat_scope.
Open Scope res_scope.

Lemma block_of_spec : forall len blocks t b, 0 < len -> 0 < blocks -> Nat.eqb b (block_of len blocks t) = in_block len blocks b t.
Proof.
  intros len blocks t b Hl Hb. unfold block_of, in_block. set (x := (t + 1) * blocks). assert (Hx : 0 < x) by (unfold x; nia).
  pose proof (Nat.div_mod (x + len - 1) len ltac:(lia)) as D. pose proof (Nat.mod_upper_bound (x + len - 1) len ltac:(lia)) as M.
  set (q := (x + len - 1) / len) in *. set (r := (x + len - 1) mod len) in *.
  assert (Q1 : 1 <= q) by nia.
  destruct (Nat.eqb_spec b (q - 1)) as [E|E].
  - subst b. symmetry. apply andb_true_iff. split; [apply Nat.ltb_lt; nia|apply Nat.leb_le; replace (q - 1 + 1) with q by lia; nia].
  - symmetry. apply not_true_is_false. intros C. apply andb_true_iff in C. destruct C as [C1 C2]. apply Nat.ltb_lt in C1. apply Nat.leb_le in C2. apply E. 
    assert (b < q) by nia. assert (q < b + 2) by nia. lia.
Qed.
Lemma counts_entry : forall n s blocks i b j, 0 < length s -> 0 < blocks -> b < blocks -> j < n -> mget (stationarity_counts n s blocks i) b j = block_moves s blocks b i j.
Proof.
  intros. unfold stationarity_counts. rewrite mget_mk by assumption. rewrite count_where_occ. apply occ_ext. intros t Ht. rewrite block_of_spec by assumption. rewrite Nat.add_1_r, (Nat.eqb_sym j).
  rewrite andb_assoc. reflexivity.
Qed.
Lemma block_nonneg : forall s blocks b i j, (0 <= block_moves s blocks b i j)%Qc. Proof. intros. apply occ_nonneg. Qed.
Lemma block_freq_nonneg : forall n s blocks i b j, (0 <= block_frequencies n s blocks i b j)%Qc.
Proof.
  intros. unfold block_frequencies. destruct (Qceqb_spec (sumn n (fun j => block_moves s blocks b i j)) 0) as [Z|Z].
  - destruct n as [|n]; [vm_compute; discriminate|]. apply Qc_div_nonneg; [vm_compute; discriminate|apply Qcn_pos; lia].
  - apply Qc_div_nonneg; [apply block_nonneg|]. destruct (pos_or_0 (sumn n (fun j => block_moves s blocks b i j))) as [P|P]; [apply sumn_nonneg; intros; apply block_nonneg|exact P|contradiction].
Qed.
Lemma block_freq_row : forall n s blocks i b, 0 < n -> row_total n (block_frequencies n s blocks i) b = 1q.
Proof.
  intros n s blocks i b Hn. unfold row_total, block_frequencies. destruct (Qceqb_spec (sumn n (fun j => block_moves s blocks b i j)) 0) as [Z|Z].
  - rewrite sumn_const_n. apply Qcmult_div_r. apply Qc_lt_neq. apply Qcn_pos. exact Hn.
  - rewrite sumn_div. apply Qc_div_self. exact Z.
Qed.
Lemma stationarity_entry : forall n s blocks i b j, 0 < n -> 0 < length s -> 0 < blocks -> b < blocks -> j < n -> mget (stationarity_table n s blocks i) b j = block_frequencies n s blocks i b j.
Proof.
  intros n s blocks i b j Hn Hs Hb Hb' Hj. unfold stationarity_table. rewrite (mget_div_rows blocks n) by (try apply wf_mk; assumption).
  assert (R : rowsum (stationarity_counts n s blocks i) b = sumn n (fun j => block_moves s blocks b i j)).
  { rewrite (rowsum_eq blocks n) by (try apply wf_mk; lia). apply sumn_ext. intros; apply counts_entry; assumption. }
  rewrite mget_mk by assumption. rewrite (sumn_ext n _ (fun l => if Qceqb (sumn n (fun j => block_moves s blocks b i j)) 0 then (1 / Qcn n)%Qc else block_moves s blocks b i l)).
  2:{ intros l Hl. rewrite mget_mk by assumption. rewrite R, counts_entry by assumption. reflexivity. }
  rewrite R, counts_entry by assumption. unfold block_frequencies. destruct (Qceqb (sumn n (fun j => block_moves s blocks b i j)) 0).
  - rewrite sumn_const_n. rewrite Qcmult_div_r by (apply Qc_lt_neq; apply Qcn_pos; exact Hn). unfold Qcdiv at 1. replace (/ 1)%Qc with 1q by (apply Qc_is_canon; reflexivity). ring.
  - reflexivity.
Qed.
Lemma stationarity_unfold : forall cdf states s blocks sig, 1 <= blocks -> assess_stationarity cdf states s blocks sig = prologue states s sig (fun st => let n := length st in
  match sum_opt (map (fun state => (if Nat.eqb blocks 1 then chisquare else chi2_contingency) (stationarity_table n s blocks state)) (seq 0 n)) with
  | None => Ok undetermined
  | Some chi2 => Ok (conclude cdf true sig (EFin (Qc2R chi2)) (Z.of_nat (n * (n - 1) * (blocks - 1))))
  end).
Proof.
  intros. unfold assess_stationarity, prologue. destruct (validate_labels_input states None) as [st|]; [|reflexivity]. cbn [bind].
  destruct (sequence_okb (length st) s); [|reflexivity]. replace (Nat.leb 1 blocks) with true by (symmetry; apply Nat.leb_le; assumption). reflexivity.
Qed.
Lemma stationarity_default : forall cdf states s sig, test_arguments states s sig ->
  exists t, assess_stationarity cdf states s 1 sig = Ok t /\ t_reject t = Some true /\ t_pvalue t = Some 0%R.
Proof.
  intros cdf states s sig TA. rewrite stationarity_unfold by lia. rewrite prologue_ok by exact TA. cbv zeta. set (n := length states). cbn [Nat.eqb].
  rewrite (sum_opt_some _ (fun i => let o := stationarity_table n s 1 i in let c := ncols o in let mean := (sumn c (fun j => mget o 0 j) / Qcn c)%Qc in
    sumn c (fun j => (mget o 0 j - mean) * (mget o 0 j - mean) / mean)%Qc)) by (intros; reflexivity).
  eexists. split; [reflexivity|]. replace (Z.of_nat (n * (n - 1) * (1 - 1))) with 0%Z by (rewrite Nat.mul_0_r; reflexivity).
  destruct (conclude_zero cdf sig (EFin (Qc2R (lsum (map (fun i => let o := stationarity_table n s 1 i in let c := ncols o in let mean := (sumn c (fun j => mget o 0 j) / Qcn c)%Qc in
    sumn c (fun j => (mget o 0 j - mean) * (mget o 0 j - mean) / mean)%Qc) (seq 0 n))))) ltac:(apply TA)) as (A & B & _). split; [exact A|exact B].
Qed.
Lemma stationarity_chi2 : forall n s blocks i, 2 <= n -> 2 <= blocks -> 0 < length s ->
  (full_table blocks n (block_frequencies n s blocks i) -> chi2_contingency (stationarity_table n s blocks i) =
     Some (if Nat.eqb blocks 2 && Nat.eqb n 2 then pearson_corrected blocks n (block_frequencies n s blocks i) else pearson blocks n (block_frequencies n s blocks i))) /\
  (~ full_table blocks n (block_frequencies n s blocks i) -> chi2_contingency (stationarity_table n s blocks i) = None).
Proof.
  intros n s blocks i Hn Hb Hs.
  assert (EQ : forall b j, b < blocks -> j < n -> mget (stationarity_table n s blocks i) b j = block_frequencies n s blocks i b j) by (intros; apply stationarity_entry; lia).
  pose proof (table_ext blocks n (fun b j => mget (stationarity_table n s blocks i) b j) (block_frequencies n s blocks i) EQ) as (T1 & T2 & T3 & _).
  assert (Nn : forall b j, b < blocks -> j < n -> (0 <= mget (stationarity_table n s blocks i) b j)%Qc) by (intros; rewrite EQ by assumption; apply block_freq_nonneg).
  assert (Wt : wf blocks n (stationarity_table n s blocks i)).
  { unfold stationarity_table. apply wf_div_rows; [lia|apply wf_mk]. }
  split; intros F.
  - rewrite (contingency_full blocks n (stationarity_table n s blocks i) Hb Hn Wt Nn) by (apply T1; exact F). rewrite T2, T3. reflexivity.
  - apply (contingency_empty blocks n (stationarity_table n s blocks i) Hb Hn Wt Nn). rewrite T1. exact F.
Qed.
Lemma freq_table_total : forall n s blocks i, 0 < n -> table_total blocks n (block_frequencies n s blocks i) = Qcn blocks.
Proof. intros. unfold table_total. rewrite (sumn_ext _ _ (fun _ => 1q)) by (intros; apply block_freq_row; assumption). rewrite sumn_const_n. ring. Qed.
Lemma freq_independent : forall n s blocks i, 0 < n -> 0 < blocks -> 
  (independent blocks n (block_frequencies n s blocks i) <-> forall b b' j, b < blocks -> b' < blocks -> j < n -> block_frequencies n s blocks i b j = block_frequencies n s blocks i b' j).
Proof.
  intros n s blocks i Hn Hb. unfold independent. rewrite freq_table_total by exact Hn. pose proof (Qcn_pos blocks Hb) as P. split.
  - intros I b b' j H1 H2 Hj. pose proof (I b j H1 Hj) as A. pose proof (I b' j H2 Hj) as B. rewrite block_freq_row in A, B by exact Hn.
    apply (Qc_mul_cancel_r _ _ (Qcn blocks)); [apply Qc_lt_neq; exact P|]. rewrite A, B. reflexivity.
  - intros E b j H1 Hj. rewrite block_freq_row by exact Hn. unfold column_total. rewrite (sumn_ext _ _ (fun _ => block_frequencies n s blocks i b j)) by (intros; apply E; assumption). rewrite sumn_const_n. ring.
Qed.
Lemma stationarity_spec : forall cdf states s blocks sig t, let n := length states in 2 <= blocks -> assess_stationarity cdf states s blocks sig = Ok t ->
  ((exists i j, i < n /\ j < n /\ forall b, b < blocks -> block_frequencies n s blocks i b j = 0q) -> no_conclusion t) /\
  ((forall i j, i < n -> j < n -> exists b, b < blocks /\ block_frequencies n s blocks i b j <> 0q) ->
    reports cdf sig (EFin (Q2R (this (stationarity_statistic n s blocks)))) (Z.of_nat (n * (n - 1) * (blocks - 1))) t /\
    (0 <= stationarity_statistic n s blocks)%Qc /\
    (~ (n = 2 /\ blocks = 2) -> (stationarity_statistic n s blocks = 0q <->
       forall i b b' j, i < n -> b < blocks -> b' < blocks -> j < n -> block_frequencies n s blocks i b j = block_frequencies n s blocks i b' j))).
Proof.
  intros cdf states s blocks sig t n Hb H. rewrite stationarity_unfold in H by lia. apply prologue_inv in H. destruct H as [TA H]. assert (Hn : 2 <= n) by exact (proj1 TA). fold n in H. cbv zeta in H.
  assert (Hs : 0 < length s) by (destruct TA as (_ & _ & TA & _); lia).
  replace (Nat.eqb blocks 1) with false in H by (symmetry; apply Nat.eqb_neq; lia). split.
  - intros (i & j & Hi & Hj & Z). rewrite (sum_opt_none _ _ i) in H; [|apply in_seq; lia|].
    + injection H as <-. repeat split.
    + apply stationarity_chi2; [assumption..|]. intros [_ F]. specialize (F j Hj). unfold column_total in F. rewrite sumn_0 in F by exact Z. exact (Qclt_irr _ F).
  - intros F0. assert (F : forall i, i < n -> full_table blocks n (block_frequencies n s blocks i)).
    { intros i Hi. split.
      - intros b _. rewrite block_freq_row by lia. vm_compute. reflexivity.
      - intros j Hj. destruct (F0 i j Hi Hj) as (b & Hb' & NZ). apply (sumn_pos blocks _ b Hb'); [|intros; apply block_freq_nonneg].
        destruct (pos_or_0 _ (block_freq_nonneg n s blocks i b j)) as [P|P]; [exact P|contradiction]. }
    assert (PF : forall i, i < n -> (0 <= pearson blocks n (block_frequencies n s blocks i))%Qc /\ (0 <= pearson_corrected blocks n (block_frequencies n s blocks i))%Qc /\
      (pearson blocks n (block_frequencies n s blocks i) = 0q <-> independent blocks n (block_frequencies n s blocks i))).
    { intros i Hi. apply pearson_fn; [exact Hb|exact Hn|intros; apply block_freq_nonneg|apply F, Hi]. }
    rewrite (sum_opt_some _ (fun i => if Nat.eqb blocks 2 && Nat.eqb n 2 then pearson_corrected blocks n (block_frequencies n s blocks i) else pearson blocks n (block_frequencies n s blocks i))) in H.
    2:{ intros i Hi. apply in_seq in Hi. apply stationarity_chi2; [assumption..|apply F; lia]. }
    injection H as <-. split; [|split].
    + match goal with |- context [map ?f (seq 0 n)] => change (map f (seq 0 n)) with (tab n f) end. rewrite lsum_tab. rewrite conclude_nonzero by nia. exact (conclude_reports cdf sig _ _).
    + apply sumn_nonneg. intros i Hi. destruct (_ && _); [exact (proj1 (proj2 (PF i Hi)))|exact (proj1 (PF i Hi))].
    + intros N2. assert (E2 : Nat.eqb blocks 2 && Nat.eqb n 2 = false).
      { apply not_true_is_false. intros C. apply andb_true_iff in C. destruct C as [C1 C2]. apply Nat.eqb_eq in C1. apply Nat.eqb_eq in C2. apply N2. auto. }
      unfold stationarity_statistic. rewrite E2. split.
      * intros Z i b b' j Hi H1 H2 Hj. apply freq_independent; [lia|lia| |assumption..]. apply (proj2 (proj2 (PF i Hi))).
        exact (sumn_eq0_inv n (fun i => pearson blocks n (block_frequencies n s blocks i)) i (fun i Hi => proj1 (PF i Hi)) Z Hi).
      * intros E. apply sumn_0. intros i Hi. apply (proj2 (proj2 (PF i Hi))). apply freq_independent; [lia|lia|]. intros; apply E; assumption.
Qed.
(** two states and two blocks: the correction always removes the whole difference *)
Lemma corrected_2x2 : forall O : nat -> nat -> Qc, (forall i j, (0 <= O i j)%Qc) -> row_total 2 O 0 = 1q -> row_total 2 O 1 = 1q -> pearson_corrected 2 2 O = 0q.
Proof.
  intros O Nn R0 R1.
  assert (K : forall i j, i < 2 -> j < 2 -> (Qcabs (O i j - expected_count 2 2 O i j) <= Q2Qc (1 # 2))%Qc).
  { intros i j Hi Hj. assert (E : expected_count 2 2 O i j = ((O 0%nat j + O 1%nat j) * Q2Qc (1 # 2))%Qc).
    { unfold expected_count, table_total. cbn [sumn]. rewrite R0, R1. assert (RI : row_total 2 O i = 1q) by (destruct i as [|[|i]]; [exact R0|exact R1|lia]). rewrite RI.
      unfold column_total. cbn [sumn]. unfold Qcdiv. replace (/ (0 + 1 + 1))%Qc with (Q2Qc (1 # 2)) by (apply Qc_is_canon; reflexivity). ring. }
    rewrite E. unfold row_total in R0, R1. cbn [sumn] in R0, R1. pose proof (Nn 0 0). pose proof (Nn 0 1). pose proof (Nn 1 0). pose proof (Nn 1 1).
    apply Qcabs_le. destruct i as [|[|i]]; [| |lia]; destruct j as [|[|j]]; try lia; split; qclra. }
  apply sumn_0. intros i Hi. apply sumn_0. intros j Hj. cbv zeta.
  replace (Qcmax 0 (Qcabs (O i j - expected_count 2 2 O i j) - Q2Qc (1 # 2)))%Qc with 0q; [unfold Qcdiv; ring|].
  unfold Qcmax. specialize (K i j Hi Hj). destruct (Qcleb_spec 0 (Qcabs (O i j - expected_count 2 2 O i j) - Q2Qc (1 # 2))%Qc) as [L|L]; qclra.
Qed.
Lemma stationarity_two : forall cdf states s sig t, length states = 2 -> assess_stationarity cdf states s 2 sig = Ok t ->
  no_conclusion t \/ reports cdf sig (EFin 0%R) 2 t.
Proof.
  intros cdf states s sig t L2 H. pose proof H as H'. apply stationarity_spec in H; [|lia]. rewrite L2 in H. destruct H as [A B].
  assert (D : (exists i j, i < 2 /\ j < 2 /\ forall b, b < 2 -> block_frequencies 2 s 2 i b j = 0q) \/ (forall i j, i < 2 -> j < 2 -> exists b, b < 2 /\ block_frequencies 2 s 2 i b j <> 0q)).
  { assert (E : forall i j, (forall b, b < 2 -> block_frequencies 2 s 2 i b j = 0q) \/ (exists b, b < 2 /\ block_frequencies 2 s 2 i b j <> 0q)).
    { intros i j. destruct (Qceqb_spec (block_frequencies 2 s 2 i 0 j) 0) as [Z0|Z0]; [|right; exists 0; split; [lia|exact Z0]].
      destruct (Qceqb_spec (block_frequencies 2 s 2 i 1 j) 0) as [Z1|Z1]; [|right; exists 1; split; [lia|exact Z1]]. left. intros [|[|b]] Hb; [exact Z0|exact Z1|lia]. }
    destruct (E 0 0) as [E1|E1]; [left; exists 0, 0; split; [lia|split; [lia|exact E1]]|]. destruct (E 0 1) as [E2|E2]; [left; exists 0, 1; split; [lia|split; [lia|exact E2]]|].
    destruct (E 1 0) as [E3|E3]; [left; exists 1, 0; split; [lia|split; [lia|exact E3]]|]. destruct (E 1 1) as [E4|E4]; [left; exists 1, 1; split; [lia|split; [lia|exact E4]]|].
    right. intros i j Hi Hj. destruct i as [|[|i]]; [| |lia]; destruct j as [|[|j]]; try lia; assumption. }
  destruct D as [D|D]; [left; exact (A D)|]. right. destruct (B D) as (R & _).
  replace (stationarity_statistic 2 s 2) with 0q in R.
  - replace (Q2R (this 0q)) with 0%R in R by (symmetry; exact Qc2R_0). exact R.
  - symmetry. apply sumn_0. intros i Hi. cbn [Nat.eqb andb]. apply corrected_2x2; [intros; apply block_freq_nonneg|apply block_freq_row; lia|apply block_freq_row; lia].
Qed.
