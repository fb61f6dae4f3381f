(** L_Assess5: assess_homogeneity. *)
From Verif Require Export L_Assess4.
From Coq Require Import Reals Qreals Lra.
Close Scope Q_scope. Close Scope R_scope.
Open Scope nat_scope.
Open Scope res_scope.

Lemma fold_madd : forall n fs M, 0 < n -> wf n n M -> (forall f, In f fs -> wf n n f) -> wf n n (fold_left madd fs M) /\
  forall i j, i < n -> j < n -> mget (fold_left madd fs M) i j = (mget M i j + lsum (map (fun f => mget f i j) fs))%Qc.
Proof.
  intros n fs; induction fs as [|f fs IH]; intros M Hn W H; cbn [fold_left map].
  - split; [exact W|]. intros. change (lsum []) with 0q. ring.
  - destruct (IH (madd M f) Hn (wf_madd n n M f Hn W) (fun g Hg => H g (or_intror Hg))) as [A B]. split; [exact A|].
    intros i j Hi Hj. rewrite B by assumption. rewrite (mget_madd n n) by assumption. rewrite lsum_cons'. ring.
Qed.
Lemma total_sum : forall n s, (forall x, In x s -> x < n) -> mat_total n (moves_mat n s) = Qcn (length s - 1).
Proof.
  intros n s H. rewrite <- (moves_total n s H). apply sumn_ext. intros i Hi. apply sumn_ext. intros j Hj. apply moves_mat_entry; assumption.
Qed.
Lemma sumn_lsum_swap : forall {A} n (f : A -> nat -> Qc) l, sumn n (fun i => lsum (map (fun x => f x i) l)) = lsum (map (fun x => sumn n (f x)) l).
Proof.
  intros A n f l. induction l as [|a l IH]; cbn [map]; [apply sumn_0; reflexivity|].
  rewrite (sumn_ext n _ (fun i => f a i + lsum (map (fun x => f x i) l))%Qc) by (intros; apply lsum_cons'). rewrite sumn_plus, IH, lsum_cons'. reflexivity.
Qed.
Lemma pooled_total : forall n seqs, (forall s, In s seqs -> forall x, In x s -> x < n) -> sumn n (fun i => sumn n (pooled_moves seqs i)) = total_moves seqs.
Proof.
  intros n seqs H. unfold pooled_moves. rewrite (sumn_ext n _ (fun i => lsum (map (fun s => sumn n (seen_moves s i)) seqs))) by (intros; apply (sumn_lsum_swap n (fun s j => seen_moves s i j))).
  rewrite (sumn_lsum_swap n (fun s i => sumn n (seen_moves s i))). unfold total_moves. f_equal. apply map_ext_in. intros s Hs. apply (moves_total n s (H s Hs)).
Qed.
Lemma pooled_ge : forall seqs s i j, In s seqs -> (seen_moves s i j <= pooled_moves seqs i j)%Qc.
Proof. intros seqs s i j H. apply (lsum_map_ge (fun s => seen_moves s i j)); [intros; apply occ_nonneg|exact H]. Qed.

Lemma lsum_map_nonneg : forall {A} (f : A -> Qc) l, (forall x, In x l -> (0 <= f x)%Qc) -> (0 <= lsum (map f l))%Qc.
Proof. intros A f l H. apply lsum_nonneg. intros x Hx. apply in_map_iff in Hx. destruct Hx as (y & <- & Hy). apply H, Hy. Qed.
Lemma eq_div : forall a b c : Qc, c <> 0q -> (a * c = b)%Qc -> a = (b / c)%Qc.
Proof. intros a b c N E. apply (Qc_mul_cancel_r _ _ c N). rewrite Qc_div_mul by exact N. exact E. Qed.

Section Hom.
Variables (n : nat) (seqs : list (list nat)).
Hypothesis Hn : 0 < n.
Hypothesis Hq : seqs <> [].
Hypothesis Hs : forall s, In s seqs -> 2 <= length s /\ forall i, In i s -> i < n.
Lemma len_pos : forall s, In s seqs -> (0 < Qcn (length s - 1))%Qc. Proof. intros s H. apply Qcn_pos. destruct (Hs s H). lia. Qed.
Lemma total_pos : (0 < total_moves seqs)%Qc.
Proof.
  assert (E : exists s, In s seqs) by (destruct seqs as [|s l]; [contradiction|exists s; left; reflexivity]). destruct E as [s H]. pose proof (len_pos s H) as L.
  assert (K : (Qcn (length s - 1) <= total_moves seqs)%Qc) by (apply (lsum_map_ge (fun s => Qcn (length s - 1))); [intros; apply Qcn_nonneg|exact H]). qclra.
Qed.
Lemma pooled_nonneg : forall i j, (0 <= pooled_moves seqs i j)%Qc. Proof. intros. apply lsum_map_nonneg. intros; apply occ_nonneg. Qed.
Lemma expected_nonneg : forall s i j, In s seqs -> (0 <= expected_pairs seqs s i j)%Qc.
Proof. intros s i j H. apply Qc_div_nonneg; [|exact total_pos]. pose proof (len_pos s H). pose proof (pooled_nonneg i j). qcnra. Qed.
Lemma expected_pos : forall s i j, In s seqs -> (0 < seen_moves s i j)%Qc -> (0 < expected_pairs seqs s i j)%Qc.
Proof. intros s i j H F. apply Qc_div_pos; [|exact total_pos]. apply Qc_mul_pos; [apply len_pos, H|]. pose proof (pooled_ge seqs s i j H). qclra. Qed.
Lemma expected_total : forall s, In s seqs -> sumn n (fun i => sumn n (seen_moves s i)) = sumn n (fun i => sumn n (expected_pairs seqs s i)).
Proof.
  intros s H. transitivity (Qcn (length s - 1)); [apply (moves_total n s); apply Hs; exact H|].
  rewrite (sumn_ext n _ (fun i => Qcn (length s - 1) / total_moves seqs * sumn n (pooled_moves seqs i))%Qc).
  2:{ intros i Hi. rewrite <- sumn_mul_l. apply sumn_ext. intros j Hj. unfold expected_pairs, Qcdiv. ring. }
  rewrite sumn_mul_l, pooled_total by (intros; apply (Hs s0); assumption). rewrite Qc_div_mul by (apply Qc_lt_neq; exact total_pos). reflexivity.
Qed.
Lemma part_spec : forall s, In s seqs -> (0 <= real_sum n (fun i => real_sum n (fun j => o_ln_oe (seen_moves s i j) (expected_pairs seqs s i j))))%R /\
  (real_sum n (fun i => real_sum n (fun j => o_ln_oe (seen_moves s i j) (expected_pairs seqs s i j))) = 0%R <-> forall i j, i < n -> j < n -> seen_moves s i j = expected_pairs seqs s i j).
Proof.
  intros s H. apply (oe_sum2 n (seen_moves s) (expected_pairs seqs s)).
  - intros; apply occ_nonneg.
  - intros; apply expected_nonneg, H.
  - intros; apply expected_pos; assumption.
  - apply expected_total, H.
Qed.
Lemma hom_props : (0 <= homogeneity_statistic n seqs)%R /\ (homogeneity_statistic n seqs = 0%R <-> same_pair_proportions n seqs).
Proof.
  unfold homogeneity_statistic. set (g := fun s => real_sum n (fun i => real_sum n (fun j => o_ln_oe (seen_moves s i j) (expected_pairs seqs s i j)))).
  change (fold_right Rplus 0%R (map g seqs)) with (lR seqs g). assert (N : forall s, In s seqs -> (0 <= g s)%R) by (intros s H; apply part_spec, H). pose proof (ls_nonneg seqs g N) as L. split; [lra|].
  pose proof (Qc_lt_neq _ total_pos) as TN. split.
  - intros Z. assert (E : forall s i j, In s seqs -> i < n -> j < n -> seen_moves s i j = expected_pairs seqs s i j).
    { intros s i j H Hi Hj. apply part_spec; [exact H| |exact Hi|exact Hj]. apply (ls_zero_inv seqs g s N); [lra|exact H]. }
    intros s s' i j H H' Hi Hj. rewrite (E s i j), (E s' i j) by assumption. unfold expected_pairs, Qcdiv. ring.
  - intros E. replace (lR seqs g) with 0%R; [lra|]. symmetry. apply ls_0. intros s H. apply part_spec; [exact H|]. intros i j Hi Hj. unfold expected_pairs.
    apply eq_div; [exact TN|]. unfold total_moves, pooled_moves. rewrite <- !lsum_map_mul_l. f_equal. apply map_ext_in. intros s' H'. rewrite (E s s' i j) by assumption. ring.
Qed.
Lemma model_term : forall s pooled, In s seqs -> (forall i j, i < n -> j < n -> mget pooled i j = pooled_moves seqs i j) ->
  homogeneity_term n (moves_mat n s) pooled = real_sum n (fun i => real_sum n (fun j => o_ln_oe (seen_moves s i j) (expected_pairs seqs s i j))).
Proof.
  intros s pooled H E. unfold homogeneity_term. rewrite rsumR_lR. apply ls_ext. intros i Hi. apply in_seq in Hi. rewrite rsumR_lR. apply ls_ext. intros j Hj. apply in_seq in Hj.
  rewrite E, moves_mat_entry by lia. rewrite total_sum by (apply Hs; exact H).
  assert (T : mat_total n pooled = total_moves seqs).
  { rewrite <- (pooled_total n seqs) by (intros s0 H0; apply Hs, H0). apply sumn_ext. intros u Hu. apply sumn_ext. intros v Hv. apply E; assumption. }
  rewrite T. destruct (pos_or_0 (seen_moves s i j) (occ_nonneg _ _)) as [F|F].
  - assert (F' : (0 < pooled_moves seqs i j)%Qc) by (pose proof (pooled_ge seqs s i j H); qclra).
    rewrite (proj2 (Qcltb_lt 0 _) F), (proj2 (Qcltb_lt 0 _) F'). cbn [andb]. rewrite oe_pos by exact F. f_equal. f_equal.
    rewrite <- Qc2R_div by (apply Qc_lt_neq; apply expected_pos; assumption). f_equal. unfold expected_pairs.
    pose proof (Qc_lt_neq _ F'). pose proof (Qc_lt_neq _ (len_pos s H)). pose proof (Qc_lt_neq _ total_pos). field. repeat split; assumption.
  - rewrite F. reflexivity.
Qed.
End Hom.

Lemma share_iff : forall seqs, existsb (fun i => existsb (fun j => negb (Nat.eqb i j) && existsb (fun x => memn x (nth j seqs [])) (nth i seqs [])) (seq 0 (length seqs))) (seq 0 (length seqs)) = true <-> share_a_state seqs.
Proof.
  intros seqs. rewrite existsb_seq. unfold share_a_state. split.
  - intros (i & Hi & E). apply existsb_seq in E. destruct E as (j & Hj & E). apply andb_true_iff in E. destruct E as [N E]. apply negb_true_iff in N. apply Nat.eqb_neq in N. apply existsb_exists in E. destruct E as (x & X1 & X2). apply memn_In in X2. exists i, j, x. auto.
  - intros (i & j & x & Hi & Hj & N & X1 & X2). exists i. split; [exact Hi|]. apply existsb_seq. exists j. split; [exact Hj|]. apply andb_true_iff. split; [apply negb_true_iff, Nat.eqb_neq, N|]. apply existsb_exists. exists x. split; [exact X1|]. apply memn_In. exact X2.
Qed.
Lemma homogeneity_result : forall cdf states seqs sig, sequences_arguments states seqs sig -> let n := length states in
  (~ share_a_state seqs -> assess_homogeneity cdf states seqs sig = Ok undetermined) /\
  (share_a_state seqs -> assess_homogeneity cdf states seqs sig = Ok (conclude cdf false sig (EFin (homogeneity_statistic n seqs)) (Z.of_nat (n * (n - 1) * (length seqs - 1))))).
Proof.
  intros cdf states seqs sig (H1 & H2 & H3 & H4 & H5 & H6) n. unfold assess_homogeneity. rewrite (proj2 (labels_none_iff states states)) by auto. cbn [bind]. cbv zeta. fold n.
  rewrite (proj2 (Nat.leb_le 2 (length seqs)) H3). cbv iota.
  replace (forallb (sequence_okb n) seqs) with true by (symmetry; apply forallb_forall; intros s Hs; apply seq_ok_iff; apply H4, Hs). cbv iota.
  rewrite (proj2 (sig_ok_iff sig)) by auto. cbv iota. pose proof (share_iff seqs) as SI. destruct (existsb _ (seq 0 (length seqs))); cbn [negb].
  - split; [intros C; exfalso; apply C, SI; reflexivity|]. intros _. f_equal. f_equal. f_equal. unfold homogeneity_statistic. f_equal.
    assert (Hn : 0 < n) by (unfold n; lia). assert (Hq : seqs <> []) by (intros C; rewrite C in H3; cbn in H3; lia).
    destruct (fold_madd n (map (moves_mat n) seqs) (mk n n (fun _ _ => 0q)) Hn (wf_mk _ _ _)) as [_ B].
    { intros f Hf. apply in_map_iff in Hf. destruct Hf as (s & <- & _). apply wf_mk. }
    assert (B' : forall i j, i < n -> j < n -> mget (fold_left madd (map (moves_mat n) seqs) (mk n n (fun _ _ => 0q))) i j = pooled_moves seqs i j).
    { intros i j Hi Hj. rewrite B, mget_mk, map_map by assumption. unfold pooled_moves. rewrite Qcplus_0_l. f_equal. apply map_ext. intros s. apply moves_mat_entry; assumption. }
    generalize dependent (fold_left madd (map (moves_mat n) seqs) (mk n n (fun _ _ => 0q))). intros pooled _ B'.
    assert (K : forall l, incl l seqs -> fold_right (fun f a => (homogeneity_term n f pooled + a)%R) 0%R (map (moves_mat n) l) =
      fold_right Rplus 0%R (map (fun s => real_sum n (fun i => real_sum n (fun j => o_ln_oe (seen_moves s i j) (expected_pairs seqs s i j)))) l)).
    { induction l as [|s l IH]; intros I; [reflexivity|]. cbn [map fold_right]. rewrite IH by (intros x Hx; apply I; right; exact Hx). f_equal. apply model_term; auto. apply I; left; reflexivity. }
    apply K. apply incl_refl.
  - split; [reflexivity|]. intros C. apply SI in C. discriminate.
Qed.
Lemma homogeneity_args : forall cdf states seqs sig t, assess_homogeneity cdf states seqs sig = Ok t -> sequences_arguments states seqs sig.
Proof.
  intros cdf states seqs sig t H. unfold assess_homogeneity in H. destruct (validate_labels_input states None) as [st|] eqn:V; [|discriminate]. cbn [bind] in H. apply labels_none_iff in V. destruct V as (-> & V1 & V2). cbv zeta in H.
  destruct (Nat.leb 2 (length seqs)) eqn:L; [|discriminate]. destruct (forallb (sequence_okb (length states)) seqs) eqn:S; [|discriminate]. destruct (significance_ok sig) eqn:G; [|discriminate].
  apply sig_ok_iff in G. apply Nat.leb_le in L. rewrite forallb_forall in S. unfold sequences_arguments. split; [exact V1|]. split; [exact V2|]. split; [exact L|]. split; [|exact G]. intros s Hs. apply seq_ok_iff. apply S, Hs.
Qed.
Lemma homogeneity_spec : forall cdf states seqs sig t, let n := length states in assess_homogeneity cdf states seqs sig = Ok t ->
  (~ share_a_state seqs -> no_conclusion t) /\
  (share_a_state seqs -> reports cdf sig (EFin (homogeneity_statistic n seqs)) (Z.of_nat (n * (n - 1) * (length seqs - 1))) t /\
     (0 <= homogeneity_statistic n seqs)%R /\ (homogeneity_statistic n seqs = 0%R <-> same_pair_proportions n seqs)).
Proof.
  intros cdf states seqs sig t n H. pose proof (homogeneity_args _ _ _ _ _ H) as A. destruct (homogeneity_result cdf states seqs sig A) as [R1 R2]. split; intros S.
  - rewrite (R1 S) in H. injection H as <-. repeat split.
  - rewrite (R2 S) in H. injection H as <-. split; [apply conclude_reports|]. destruct A as (A1 & A2 & A3 & A4 & _). apply hom_props; [unfold n; lia|intros C; rewrite C in A3; cbn in A3; lia|exact A4].
Qed.

(** ** two sequences with the same transition frequencies *)
Definition long_run (m : nat) : list nat := 0 :: 0 :: repeat 1 (S m).
Lemma run_moves : forall m i j, seen_moves (repeat 1 (S m)) i j = if Nat.eqb 1 i && Nat.eqb 1 j then Qcn m else 0q.
Proof.
  induction m as [|m IH]; intros i j.
  - change (repeat 1 1) with [1]. rewrite seen_nil. destruct (_ && _); reflexivity.
  - change (repeat 1 (S (S m))) with (1 :: 1 :: repeat 1 m). rewrite moves_step. change (1 :: repeat 1 m) with (repeat 1 (S m)). rewrite IH. destruct (_ && _); [rewrite Qcn_S|]; ring.
Qed.
Lemma long_moves : forall m i j, seen_moves (long_run m) i j = ((if Nat.eqb 0 i && Nat.eqb 0 j then 1q else 0q) + ((if Nat.eqb 0 i && Nat.eqb 1 j then 1q else 0q) + (if Nat.eqb 1 i && Nat.eqb 1 j then Qcn m else 0q)))%Qc.
Proof.
  intros m i j. unfold long_run. rewrite moves_step. change (0 :: repeat 1 (S m)) with (0 :: 1 :: repeat 1 m). rewrite moves_step. change (1 :: repeat 1 m) with (repeat 1 (S m)). rewrite run_moves. reflexivity.
Qed.
Lemma long_freq : forall m, 0 < m -> frequencies 2 (long_run m) = [[Q2Qc (1 # 2); Q2Qc (1 # 2)]; [0q; 1q]].
Proof.
  intros m Hm. pose proof (Qc_lt_neq _ (Qcn_pos m Hm)) as N. unfold frequencies, departures, mk, tab. cbn [seq map sumn]. rewrite !long_moves. cbn [Nat.eqb andb].
  apply (f_equal2 (@cons (list Qc))); [|apply (f_equal2 (@cons (list Qc))); [|reflexivity]]; (apply (f_equal2 (@cons Qc)); [|apply (f_equal2 (@cons Qc)); [|reflexivity]]).
  - apply Qc_is_canon; reflexivity.
  - apply Qc_is_canon; reflexivity.
  - unfold Qcdiv. ring.
  - replace (0 + (0 + Qcn m))%Qc with (Qcn m) by ring. replace (0 + (0 + (0 + 0)) + Qcn m)%Qc with (Qcn m) by ring. apply Qc_div_self. exact N.
Qed.
Lemma Qc2R_n : forall m, Qc2R (Qcn m) = INR m.
Proof. induction m as [|m IH]; [exact Qc2R_0|]. rewrite Qcn_S, Qc2R_plus, Qc2R_1, IH, S_INR. lra. Qed.
Lemma long_statistic : forall m, 0 < m -> (4 * ln (INR (m + 5) / 6) - 2 * ln 3 <= homogeneity_statistic 2 [long_run m; long_run 1])%R.
Proof.
  intros m Hm. unfold homogeneity_statistic. cbn [map fold_right].
  assert (R : forall m s, In s [long_run m; long_run 1] -> 2 <= length s /\ forall i, In i s -> i < 2).
  { intros k s [<-|[<-|[]]]; (split; [cbn [long_run length]; lia|]); unfold long_run; intros i [<-|[<-|H]]; try lia; apply repeat_spec in H; lia. }
  destruct (part_spec 2 [long_run m; long_run 1] ltac:(lia) ltac:(discriminate) (R m) (long_run m) ltac:(left; reflexivity)) as [A _].
  set (X := real_sum 2 (fun i => real_sum 2 (fun j => o_ln_oe (seen_moves (long_run m) i j) (expected_pairs [long_run m; long_run 1] (long_run m) i j)))) in *.
  assert (E : forall i j, expected_pairs [long_run m; long_run 1] (long_run 1) i j = (Qcn 3 * (seen_moves (long_run m) i j + seen_moves (long_run 1) i j) / Qcn (m + 5))%Qc).
  { intros i j. unfold expected_pairs, pooled_moves, total_moves. cbn [map]. unfold lsum. cbn [fold_right]. replace (length (long_run 1) - 1) with 3 by reflexivity.
    replace (length (long_run m) - 1) with (m + 2) by (unfold long_run; cbn [length]; rewrite repeat_length; lia). replace (Qcn (m + 2) + (Qcn 3 + 0))%Qc with (Qcn (m + 5)).
    - rewrite Qcplus_0_r. reflexivity.
    - replace (m + 5) with (m + 2 + 3) by lia. rewrite Qcn_add. ring. }
  assert (Y : (2 * ln (INR (m + 5) / 6) - ln 3 <= real_sum 2 (fun i => real_sum 2 (fun j => o_ln_oe (seen_moves (long_run 1) i j) (expected_pairs [long_run m; long_run 1] (long_run 1) i j))))%R).
  { unfold real_sum. cbn [seq map fold_right]. rewrite !E, !long_moves. cbn [Nat.eqb andb].
    replace (0 + (0 + 0))%Qc with 0q by ring. rewrite oe_zero. replace (1 + (0 + 0))%Qc with 1q by ring. replace (0 + (1 + 0))%Qc with 1q by ring. replace (0 + (0 + Qcn m))%Qc with (Qcn m) by ring. replace (0 + (0 + Qcn 1))%Qc with 1q by (vm_compute; reflexivity).
    pose proof (Qc_lt_neq _ (Qcn_pos (m + 5) ltac:(lia))) as N5. pose proof (lt_INR 0 (m + 5) ltac:(lia)) as P5. change (INR 0) with 0%R in P5. pose proof (lt_INR 0 m Hm) as Pm. change (INR 0) with 0%R in Pm.
    rewrite !oe_pos by (vm_compute; reflexivity). rewrite !Qc2R_div by exact N5. rewrite !Qc2R_mul, !Qc2R_plus, !Qc2R_n, !Qc2R_1.
    replace (INR 3) with 3%R by (cbn; lra). replace (1 / (3 * (1 + 1) / INR (m + 5)))%R with (INR (m + 5) / 6)%R by (field; lra).
    replace (1 / (3 * (INR m + 1) / INR (m + 5)))%R with (INR (m + 5) / (3 * (INR m + 1)))%R by (field; lra).
    assert (L : (- ln 3 <= ln (INR (m + 5) / (3 * (INR m + 1))))%R).
    { rewrite <- ln_Rinv by lra. assert (K : (/ 3 <= INR (m + 5) / (3 * (INR m + 1)))%R).
      { apply (Rmult_le_reg_r (3 * (INR m + 1))); [lra|]. unfold Rdiv. rewrite Rmult_assoc, Rinv_l by lra. rewrite plus_INR. cbn [INR]. lra. }
      destruct (Rle_lt_or_eq_dec _ _ K) as [K'|K']; [left; apply ln_increasing; lra|right; rewrite K'; reflexivity]. }
    lra. }
  lra.
Qed.
Lemma long_unbounded : forall B : R, exists m, 0 < m /\ (B < homogeneity_statistic 2 [long_run m; long_run 1])%R.
Proof.
  intros B. set (K := (6 * exp ((B + 2 * ln 3) / 4))%R). assert (U : exists m, (K < INR m)%R).
  { destruct (archimed K) as [U _]. assert (0 < K)%R by (unfold K; pose proof (exp_pos ((B + 2 * ln 3) / 4)); lra). exists (Z.to_nat (up K)). rewrite INR_IZR_INZ, Z2Nat.id; [lra|]. apply le_IZR. lra. }
  destruct U as [m Hm]. exists (S m). split; [lia|].
  pose proof (long_statistic (S m) ltac:(lia)) as L. assert (H : ((B + 2 * ln 3) / 4 < ln (INR (S m + 5) / 6))%R).
  { rewrite <- (ln_exp ((B + 2 * ln 3) / 4)). apply ln_increasing; [apply exp_pos|]. unfold K in Hm. rewrite plus_INR, S_INR. cbn [INR]. lra. }
  lra.
Qed.
