(** L_Assess4: assess_theoretical_compatibility and assess_homogeneity. *)
From Verif Require Export L_Assess3.
From Coq Require Import Reals Qreals Lra.
Close Scope Q_scope. Close Scope R_scope.
Open Scope nat_scope.
Open Scope res_scope.

Section Compat.
Variables (n : nat) (P : mat) (s : list nat).
Hypothesis St : stochastic n P.
Hypothesis Hl : 2 <= length s.
Hypothesis Hs : forall i, In i s -> i < n.
Let f := seen_moves s.
Let d := departures n s.
Let a := arrivals n s.
Lemma s_cons : s = hd 0%nat s :: tl s. Proof. destruct s; [cbn in Hl; lia|reflexivity]. Qed.
Lemma s_range : forall x, In x (hd 0%nat s :: tl s) -> x < n. Proof. intros x. rewrite <- s_cons. apply Hs. Qed.
Lemma P_nonneg : forall i j, i < n -> j < n -> (0 <= mget P i j)%Qc. Proof. intros i j Hi Hj. apply St; assumption. Qed.
Lemma possible_iff : possible n P s <-> forall i j, (0 < f i j)%Qc -> (0 < mget P i j)%Qc.
Proof. unfold possible. rewrite (path_pos_iff n P (tl s) (hd 0%nat s) P_nonneg s_range). rewrite <- s_cons. reflexivity. Qed.
Lemma in_of_moves : forall u v, (0 < f u v)%Qc -> u < n /\ v < n.
Proof.
  intros u v H. unfold f, seen_moves, occurrences in H.
  assert (E : exists t, t < length s - 1 /\ nth t s 0 = u /\ nth (S t) s 0 = v).
  { revert H. generalize (length s - 1). intros m. induction m as [|m IH]; intros H; [destruct (Qclt_irr _ H)|]. cbn [sumn] in H.
    destruct (Nat.eqb_spec (nth m s 0) u) as [E1|E1]; [destruct (Nat.eqb_spec (nth (S m) s 0) v) as [E2|E2]|]; cbn [andb] in H.
    - exists m. split; [lia|auto].
    - rewrite Qcplus_0_r in H. destruct (IH H) as (t & T & R). exists t. split; [lia|exact R].
    - rewrite Qcplus_0_r in H. destruct (IH H) as (t & T & R). exists t. split; [lia|exact R]. }
  destruct E as (t & T & <- & <-). split; apply Hs, nth_In; lia.
Qed.
Lemma freq_nonneg : forall i j, i < n -> j < n -> (0 <= mget (frequencies n s) i j)%Qc.
Proof.
  intros i j Hi Hj. unfold frequencies. rewrite mget_mk by assumption. destruct (pos_or_0 _ (departures_nonneg n s i)) as [Q|Q].
  - apply Qc_div_nonneg; [apply occ_nonneg|exact Q].
  - rewrite Q. unfold Qcdiv. replace (/ 0)%Qc with 0q by (apply Qc_is_canon; reflexivity). rewrite Qcmult_0_r. apply Qcle_refl.
Qed.
Lemma freq_pos : forall i j, (0 < f i j)%Qc -> (0 < mget (frequencies n s) i j)%Qc.
Proof.
  intros i j H. destruct (in_of_moves i j H) as [Hi Hj]. unfold frequencies. rewrite mget_mk by assumption. apply Qc_div_pos; [exact H|]. apply (departures_pos n s i j Hj H).
Qed.
Definition gsum (e : nat -> nat -> Qc) : R := lR (seq 0 n) (fun i => lR (seq 0 n) (fun j => o_ln_oe (f i j) (e i j))).
Lemma lr_gsum : possible n P s -> likelihood_ratio n P s = (2 * gsum (fun i j => d i * mget P i j)%Qc)%R.
Proof.
  intros Ps. pose proof (proj1 possible_iff Ps) as Q. unfold likelihood_ratio, log_probability.
  change (Q2R (this (path_prob P (hd 0%nat s) (tl s)))) with (Qc2R (path_prob P (hd 0%nat s) (tl s))). change (Q2R (this (path_prob (frequencies n s) (hd 0%nat s) (tl s)))) with (Qc2R (path_prob (frequencies n s) (hd 0%nat s) (tl s))).
  rewrite (path_log n P) by (exact P_nonneg || exact s_range || exact Ps).
  rewrite (path_log n (frequencies n s)).
  2:{ exact freq_nonneg. } 2:{ exact s_range. }
  2:{ apply (path_pos_iff n); [exact freq_nonneg|exact s_range|]. rewrite <- s_cons. exact freq_pos. }
  rewrite <- s_cons. f_equal. unfold dsum, gsum. 
  transitivity (lR (seq 0 n) (fun i => - lR (seq 0 n) (fun j => Qc2R (f i j) * ln (Qc2R (mget P i j))) + lR (seq 0 n) (fun j => Qc2R (f i j) * ln (Qc2R (mget (frequencies n s) i j))))%R).
  { rewrite ls_plus, ls_opp. unfold f. lra. }
  apply ls_ext.
  intros i Hi. apply in_seq in Hi. rewrite <- ls_opp, <- ls_plus. apply ls_ext. intros j Hj. apply in_seq in Hj.
  destruct (pos_or_0 (f i j) (occ_nonneg _ _)) as [F|F]; [|rewrite F, Qc2R_0, oe_zero; lra].
  rewrite oe_pos by exact F. unfold frequencies. rewrite mget_mk by lia. pose proof (departures_pos n s i j ltac:(lia) F) as D.
  rewrite Qc2R_div by (apply Qc_lt_neq; exact D). rewrite Qc2R_mul. pose proof (Qc2R_pos _ F) as RF. pose proof (Qc2R_pos _ D) as RD. pose proof (Qc2R_pos _ (Q i j F)) as RP.
  fold (f i j). fold (d i) in RD. fold (d i). rewrite !ln_quot by (assumption || (apply Rmult_lt_0_compat; assumption)). rewrite ln_mult by assumption. lra.
Qed.
Lemma dP_total : forall i, i < n -> sumn n (fun j => d i * mget P i j)%Qc = sumn n (f i).
Proof. intros i Hi. rewrite sumn_mul_l. destruct St as (_ & _ & R). rewrite R by exact Hi. unfold d, departures. ring_simplify. reflexivity. Qed.
Lemma lr_properties : possible n P s -> (0 <= likelihood_ratio n P s)%R /\ (likelihood_ratio n P s = 0%R <-> forall i j, i < n -> j < n -> f i j = (d i * mget P i j)%Qc).
Proof.
  intros Ps. rewrite lr_gsum by exact Ps.
  destruct (oe_sum2 n f (fun i j => d i * mget P i j)%Qc) as [A B].
  - intros; apply occ_nonneg.
  - intros i j Hi Hj. pose proof (departures_nonneg n s i). pose proof (P_nonneg i j Hi Hj). unfold d. qcnra.
  - intros i j Hi Hj F. apply Qc_mul_pos; [apply (departures_pos n s i j Hj F)|apply (proj1 possible_iff Ps i j F)].
  - apply sumn_ext. intros i Hi. symmetry. apply dP_total. exact Hi.
  - unfold gsum. split; [lra|]. rewrite <- B. split; intros Z; lra.
Qed.
(** what the code computes *)
Lemma gsum_arrivals : possible n P s -> (forall i j, (0 < f i j)%Qc -> (0 < a i)%Qc) ->
  gsum (fun i j => a i * mget P i j)%Qc = (gsum (fun i j => d i * mget P i j)%Qc + lR (seq 0 n) (fun i => o_ln_oe (d i) (a i)))%R.
Proof.
  intros Ps Ha. pose proof (proj1 possible_iff Ps) as Q. unfold gsum. rewrite <- ls_plus. apply ls_ext. intros i Hi. apply in_seq in Hi.
  destruct (pos_or_0 (d i) (departures_nonneg n s i)) as [D|D].
  - assert (A : (0 < a i)%Qc).
    { destruct (pos_or_0 (a i) (arrivals_nonneg n s i)) as [A|A]; [exact A|]. exfalso. assert (Z : d i = 0q); [|rewrite Z in D; exact (Qclt_irr _ D)].
      apply sumn_0. intros j Hj. destruct (pos_or_0 (seen_moves s i j) (occ_nonneg _ _)) as [F|F]; [|exact F]. specialize (Ha i j F). rewrite A in Ha. destruct (Qclt_irr _ Ha). }
    rewrite (oe_pos (d i)) by exact D. unfold d at 2, departures. rewrite Qc2R_sumn. fold (d i).
    rewrite <- ls_mul_r. rewrite <- ls_plus. apply ls_ext. intros j Hj. apply in_seq in Hj. destruct (pos_or_0 (f i j) (occ_nonneg _ _)) as [F|F].
    + rewrite !oe_pos by exact F. rewrite !Qc2R_mul. pose proof (Qc2R_pos _ F) as RF. pose proof (Qc2R_pos _ D) as RD. pose proof (Qc2R_pos _ (Q i j F)) as RP. pose proof (Qc2R_pos _ A) as RA.
      change (Qc2R (seen_moves s i j)) with (Qc2R (f i j)). rewrite !ln_quot by (assumption || (apply Rmult_lt_0_compat; assumption)). rewrite !ln_mult by assumption. lra.
    + change (seen_moves s i j) with (f i j). rewrite F, !oe_zero, Qc2R_0. lra.
  - rewrite D, oe_zero, Rplus_0_r. apply ls_ext. intros j Hj. apply in_seq in Hj.
    assert (F : f i j = 0q). { apply (sumn_eq0_inv n (fun j => seen_moves s i j)); [intros; apply occ_nonneg|exact D|lia]. }
    rewrite F, !oe_zero. reflexivity.
Qed.
Lemma closed_arrivals : hd 0%nat s = last s 0%nat -> forall i, a i = d i.
Proof.
  intros E i. pose proof (conservation n (tl s) (hd 0%nat s) i s_range) as C. rewrite <- s_cons in C. rewrite <- E in C. fold (d i) (a i) in C. destruct (Nat.eqb _ _); qclra.
Qed.
Lemma open_arrivals : hd 0%nat s <> last s 0%nat -> d (hd 0%nat s) <> a (hd 0%nat s).
Proof.
  intros E. pose proof (conservation n (tl s) (hd 0%nat s) (hd 0%nat s) s_range) as C. rewrite <- s_cons in C. rewrite Nat.eqb_refl in C. replace (Nat.eqb (last s 0%nat) (hd 0%nat s)) with false in C by (symmetry; apply Nat.eqb_neq; auto).
  fold (d (hd 0%nat s)) (a (hd 0%nat s)) in C. intros K. rewrite K in C. qclra.
Qed.
Lemma excess : (forall i, i < n -> (0 < d i)%Qc -> (0 < a i)%Qc) -> (0 <= lR (seq 0 n) (fun i => o_ln_oe (d i) (a i)))%R /\ (hd 0%nat s <> last s 0%nat -> (0 < lR (seq 0 n) (fun i => o_ln_oe (d i) (a i)))%R).
Proof.
  intros H. destruct (oe_sum (seq 0 n) d a) as [A B].
  - intros; apply departures_nonneg.
  - intros; apply arrivals_nonneg.
  - intros i Hi. apply in_seq in Hi. apply H. lia.
  - change (map d (seq 0 n)) with (tab n d). change (map a (seq 0 n)) with (tab n a). rewrite !lsum_tab. unfold d, a. rewrite moves_total, moves_total_in by exact Hs. reflexivity.
  - split; [exact A|]. intros E. destruct (Rle_lt_or_eq_dec _ _ A) as [L|L]; [exact L|]. exfalso. apply (open_arrivals E). apply (proj1 B (eq_sym L)). apply in_seq. split; [lia|]. apply s_range. left. reflexivity.
Qed.
End Compat.

Lemma count_concat : forall (g : Qc -> bool) (l : list (list Qc)), length (filter g (concat l)) = list_sum (map (fun r => length (filter g r)) l).
Proof. intros g l. induction l as [|r l IH]; [reflexivity|]. cbn [concat map list_sum fold_right]. rewrite filter_app, app_length, IH. reflexivity. Qed.
Lemma filter_map_len : forall {A B} (h : A -> B) g l, length (filter g (map h l)) = length (filter (fun x => g (h x)) l).
Proof. intros A B h g l. induction l as [|a l IH]; [reflexivity|]. cbn [map filter]. destruct (g (h a)); cbn [length]; rewrite IH; reflexivity. Qed.
Lemma nonzero_count : forall n P, wf n n P -> length (filter (fun x => negb (Qceqb x 0)) (concat P)) = possible_moves n P.
Proof.
  intros n P W. rewrite count_concat. unfold possible_moves. rewrite <- (mk_mget n n P W) at 1. unfold mk, tab. rewrite map_map. f_equal. apply map_ext_in. intros i Hi. apply (filter_map_len (mget P i)).
Qed.
Lemma forallb_seq : forall n g, forallb g (seq 0 n) = true <-> forall i, i < n -> g i = true.
Proof. intros. rewrite forallb_forall. split; intros H i Hi; apply H; apply in_seq in Hi || apply in_seq; lia. Qed.
Lemma existsb_seq : forall n g, existsb g (seq 0 n) = true <-> exists i, i < n /\ g i = true.
Proof. intros. rewrite existsb_exists. split; intros (i & Hi & G); exists i; (split; [|exact G]); apply in_seq in Hi || apply in_seq; lia. Qed.

Lemma compat_spec : forall cdf mc s sig t, let P := ch_p mc in let n := length (ch_p mc) in stochastic n P ->
  assess_theoretical_compatibility cdf mc s sig = Ok t ->
  sequence_arguments n s sig /\
  (~ possible n P s -> t_reject t = Some true /\ t_pvalue t = Some 0%R /\ t_chi2 t = None) /\
  (possible n P s -> (0 <= likelihood_ratio n P s)%R /\
     (likelihood_ratio n P s = 0%R <-> forall i j, i < n -> j < n -> seen_moves s i j = (departures n s i * mget P i j)%Qc) /\
     (hd 0%nat s = last s 0%nat -> reports cdf sig (EFin (likelihood_ratio n P s)) (Z.of_nat (possible_moves n P) - Z.of_nat n) t) /\
     (hd 0%nat s <> last s 0%nat -> exists x, exceeds x (likelihood_ratio n P s) /\ reports cdf sig x (Z.of_nat (possible_moves n P) - Z.of_nat n) t)).
Proof.
  intros cdf mc s sig t P n St H. unfold assess_theoretical_compatibility in H. fold P in H. change (nrows P) with n in H. cbv zeta in H.
  destruct (sequence_okb n s) eqn:S1; [|discriminate]. destruct (significance_ok sig) eqn:S2; [|discriminate]. cbv iota in H.
  apply seq_ok_iff in S1. apply sig_ok_iff in S2. destruct S1 as [Hl Hs]. assert (n0 : 0 < n). { destruct s as [|x w]; [cbn in Hl; lia|]. specialize (Hs x (or_introl eq_refl)). lia. }
  split; [unfold sequence_arguments; tauto|].
  assert (W : wf n n P) by (destruct St as (W & _); exact W).
  assert (NN : forall i j, i < n -> j < n -> (0 <= mget P i j)%Qc) by (apply P_nonneg; exact St).
  pose proof (possible_iff n P s St Hl Hs) as PI.
  assert (TI : forallb (fun i => forallb (fun j => negb (Qceqb (mget P i j) 0) || Qceqb (mget (moves_mat n s) i j) 0) (seq 0 n)) (seq 0 n) = true <-> possible n P s).
  { rewrite PI, forallb_seq. split.
    - intros K i j F. destruct (in_of_moves n s Hl Hs i j F) as [Hi Hj]. specialize (K i Hi). rewrite forallb_seq in K. specialize (K j Hj). rewrite moves_mat_entry in K by assumption.
      apply orb_true_iff in K. destruct K as [K|K].
      + apply negb_true_iff in K. apply Qceqb_neq in K. destruct (pos_or_0 _ (NN i j Hi Hj)) as [Q|Q]; [exact Q|contradiction].
      + apply Qceqb_eq in K. rewrite K in F. destruct (Qclt_irr _ F).
    - intros K i Hi. apply forallb_seq. intros j Hj. rewrite moves_mat_entry by assumption. destruct (pos_or_0 (seen_moves s i j) (occ_nonneg _ _)) as [F|F].
      + specialize (K i j F). apply orb_true_iff. left. apply negb_true_iff. apply Qceqb_neq. apply Qc_lt_neq. exact K.
      + rewrite F. apply orb_true_r. }
  destruct (forallb _ (seq 0 n)) eqn:TB.
  2:{ injection H as <-. split; [intros _; repeat split|]. intros Ps. apply TI in Ps. discriminate. }
  assert (Ps : possible n P s) by (apply TI; reflexivity). clear TI. split; [intros C; contradiction|]. intros _. pose proof (proj1 PI Ps) as Q.
  assert (FC : forall i, i < n -> sumn n (fun j => mget (moves_mat n s) j i) = arrivals n s i) by (intros i Hi; apply sumn_ext; intros j Hj; apply moves_mat_entry; assumption).
  assert (DOF : (Z.of_nat (n * (n - 1)) - (Z.of_nat (n * n) - Z.of_nat (length (filter (fun x => negb (Qceqb x 0)) (concat P)))))%Z = (Z.of_nat (possible_moves n P) - Z.of_nat n)%Z).
  { rewrite (nonzero_count n P W). rewrite !Nat2Z.inj_mul, Nat2Z.inj_sub by lia. ring. }
  rewrite DOF in H. destruct (lr_properties n P s St Hl Hs Ps) as [L1 L2]. split; [exact L1|]. split; [exact L2|].
  assert (USED : forall i j, i < n -> j < n -> Qcltb 0 (mget P i j) && Qcltb 0 (mget (moves_mat n s) i j) = Qcltb 0 (seen_moves s i j)).
  { intros i j Hi Hj. rewrite moves_mat_entry by assumption. destruct (Qcltb_spec 0 (seen_moves s i j)) as [F|F]; [|apply andb_false_r]. rewrite (proj2 (Qcltb_lt 0 _) (Q i j F)). reflexivity. }
  match type of H with context [if existsb ?g (seq 0 n) then EInf else _] => destruct (existsb g (seq 0 n)) eqn:EI end.
  - (* infinite *)
    apply existsb_seq in EI. destruct EI as (i & Hi & EI). apply existsb_seq in EI. destruct EI as (j & Hj & EI). rewrite USED in EI by assumption. apply andb_true_iff in EI. destruct EI as [F Z]. apply Qcltb_lt in F. rewrite FC in Z by exact Hi. apply Qceqb_eq in Z.
    injection H as <-. split.
    + intros E. exfalso. rewrite (closed_arrivals n s Hl Hs E i) in Z. pose proof (departures_pos n s i j Hj F) as D. rewrite Z in D. exact (Qclt_irr _ D).
    + intros _. exists EInf. split; [exact I|]. apply conclude_reports.
  - assert (AP : forall i j, (0 < seen_moves s i j)%Qc -> (0 < arrivals n s i)%Qc).
    { intros i j F. destruct (in_of_moves n s Hl Hs i j F) as [Hi Hj]. destruct (pos_or_0 _ (arrivals_nonneg n s i)) as [A|A]; [exact A|]. exfalso. apply not_true_iff_false in EI. apply EI. apply existsb_seq. exists i. split; [exact Hi|]. apply existsb_seq. exists j. split; [exact Hj|].
      rewrite USED, FC by assumption. rewrite A, (proj2 (Qcltb_lt 0 _) F). reflexivity. }
    match type of H with context [(2 * rsumR n ?g)%R] => assert (EQ : rsumR n g = gsum n s (fun i j => arrivals n s i * mget P i j)%Qc) end.
    { rewrite rsumR_lR. apply ls_ext. intros i Hi. apply in_seq in Hi. rewrite rsumR_lR. apply ls_ext. intros j Hj. apply in_seq in Hj. rewrite USED by lia. rewrite FC, moves_mat_entry by lia.
      destruct (Qcltb_spec 0 (seen_moves s i j)) as [F|F].
      - rewrite oe_pos by exact F. f_equal. f_equal. apply Qc2R_div. apply Qc_lt_neq. apply Qc_mul_pos; [apply (AP i j F)|apply (Q i j F)].
      - destruct (pos_or_0 (seen_moves s i j) (occ_nonneg _ _)) as [F'|F']; [destruct (Qclt_not_le _ _ F' F)|]. rewrite F'. reflexivity. }
    rewrite EQ in H. clear EQ. rewrite (gsum_arrivals n P s St Hl Hs Ps AP) in H.
    assert (DA : forall i, i < n -> (0 < departures n s i)%Qc -> (0 < arrivals n s i)%Qc).
    { intros i Hi D. destruct (pos_or_0 _ (arrivals_nonneg n s i)) as [A|A]; [exact A|]. exfalso. assert (Z : departures n s i = 0q); [|rewrite Z in D; exact (Qclt_irr _ D)].
      apply sumn_0. intros j Hj. destruct (pos_or_0 (seen_moves s i j) (occ_nonneg _ _)) as [F|F]; [|exact F]. pose proof (AP i j F) as K. rewrite A in K. destruct (Qclt_irr _ K). }
    pose proof (lr_gsum n P s St Hl Hs Ps) as LG. destruct (excess n s Hl Hs DA) as [X1 X2]. injection H as <-. split.
    + intros E. rewrite (ls_0 (seq 0 n) (fun i => o_ln_oe (departures n s i) (arrivals n s i))).
      * rewrite Rplus_0_r, <- LG. apply conclude_reports.
      * intros i _. rewrite (closed_arrivals n s Hl Hs E i). apply oe_self. apply departures_nonneg.
    + intros E. specialize (X2 E). eexists. split; [|apply conclude_reports]. cbn [exceeds]. rewrite LG. lra.
Qed.
