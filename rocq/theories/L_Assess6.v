(** L_Assess6: assess_markov_property. *)
From Verif Require Export L_Assess5.
From Coq Require Import Reals Qreals Lra Permutation.
Close Scope Q_scope. Close Scope R_scope.
Open Scope nat_scope.
Open Scope res_scope.

Lemma filter_nil : forall {A} (g : A -> bool) l, (forall y, In y l -> g y = false) -> filter g l = [].
Proof. intros A g l; induction l as [|a l IH]; intros H; [reflexivity|]. cbn [filter]. rewrite (H a) by (left; reflexivity). apply IH. intros; apply H; right; assumption. Qed.
Section Distinct.
Context {A : Type} (eqb : A -> A -> bool).
Hypothesis eqb_iff : forall x y, eqb x y = true <-> x = y.
Lemma ex_eqb : forall x l, existsb (eqb x) l = true <-> In x l.
Proof. intros x l. rewrite existsb_exists. split; [intros (y & H & E); apply eqb_iff in E; subst; exact H|]. intros H. exists x. split; [exact H|]. apply eqb_iff. reflexivity. Qed.
Lemma distinct_in : forall l x, In x (distinct eqb l) <-> In x l.
Proof.
  intros l; induction l as [|a l IH]; intros x; [reflexivity|]. cbn [distinct]. destruct (existsb (eqb a) l) eqn:E.
  - apply ex_eqb in E. rewrite IH. split; [right; assumption|]. intros [->|H]; assumption.
  - cbn [In]. rewrite IH. reflexivity.
Qed.
Lemma distinct_nodup : forall l, NoDup (distinct eqb l).
Proof.
  intros l; induction l as [|a l IH]; [constructor|]. cbn [distinct]. destruct (existsb (eqb a) l) eqn:E; [exact IH|]. constructor; [|exact IH]. rewrite distinct_in. intros C. apply ex_eqb in C. congruence.
Qed.
Lemma distinct_perm : forall l l', NoDup l' -> (forall x, In x l' <-> In x l) -> Permutation (distinct eqb l) l'.
Proof. intros l l' N H. apply NoDup_Permutation; [apply distinct_nodup|exact N|]. intros x. rewrite distinct_in, H. reflexivity. Qed.
Lemma filter_self : forall l x, NoDup l -> In x l -> filter (fun y => eqb y x) l = [x].
Proof.
  intros l x; induction l as [|a l IH]; intros N I; [destruct I|]. apply NoDup_cons_iff in N. destruct N as [N1 N2]. cbn [filter]. destruct I as [->|I].
  - rewrite (proj2 (eqb_iff x x) eq_refl). f_equal. apply filter_nil. intros y Hy. apply not_true_is_false. intros C. apply eqb_iff in C. subst. contradiction.
  - destruct (eqb a x) eqn:E; [apply eqb_iff in E; subst; contradiction|]. apply IH; assumption.
Qed.
End Distinct.
Lemma triple_eqb_iff : forall x y, triple_eqb x y = true <-> x = y.
Proof. intros [[a b] c] [[d e] f]. unfold triple_eqb. rewrite !andb_true_iff, !Nat.eqb_eq. split; [intros [[-> ->] ->]; reflexivity|]. intros E. injection E. auto. Qed.
Lemma pair_eqb_iff : forall x y, pair_eqb x y = true <-> x = y.
Proof. intros [a b] [d e]. unfold pair_eqb. cbn [fst snd]. rewrite andb_true_iff, !Nat.eqb_eq. split; [intros [-> ->]; reflexivity|]. intros E. injection E. auto. Qed.

Lemma in_tab : forall {A} m (f : nat -> A) x, In x (tab m f) <-> exists t, t < m /\ x = f t.
Proof. intros. unfold tab. rewrite in_map_iff. split; intros (t & H1 & H2); exists t; [apply in_seq in H2; split; [lia|auto]|split; [auto|apply in_seq; lia]]. Qed.
Lemma count_tab : forall {A} m (f : nat -> A) g, Qcn (length (filter g (tab m f))) = occurrences m (fun t => g (f t)).
Proof. intros A m f g. unfold tab. rewrite filter_map_len. apply count_where_occ. Qed.
Lemma sample3_in : forall s x, In x (sample3 s) <-> exists t, t < sample_length s /\ x = (nth t s 0, nth (S t) s 0, nth (S (S t)) s 0).
Proof. intros s x. unfold sample3. rewrite in_tab. split; intros (t & H1 & H2); exists t; (split; [exact H1|]); rewrite H2; rewrite Nat.add_1_r; replace (t + 2) with (S (S t)) by lia; reflexivity. Qed.
Lemma sample2_in : forall s x, In x (sample2 s) <-> exists t, t < sample_length s /\ x = (nth t s 0, nth (S t) s 0).
Proof. intros s x. unfold sample2. rewrite in_tab. split; intros (t & H1 & H2); exists t; (split; [exact H1|]); rewrite H2; rewrite Nat.add_1_r; reflexivity. Qed.
Lemma sample3_count : forall s a b c, Qcn (length (filter (triple_eqb (a, b, c)) (sample3 s))) = sample_triples s a b c.
Proof.
  intros. unfold sample3. rewrite count_tab. apply occ_ext. intros t _. unfold triple_eqb. rewrite Nat.add_1_r. replace (t + 2) with (S (S t)) by lia. rewrite (Nat.eqb_sym a), (Nat.eqb_sym b), (Nat.eqb_sym c). reflexivity.
Qed.
Lemma sample2_count : forall s a b, Qcn (length (filter (pair_eqb (a, b)) (sample2 s))) = sample_pairs s a b.
Proof. intros. unfold sample2. rewrite count_tab. apply occ_ext. intros t _. unfold pair_eqb. cbn [fst snd]. rewrite Nat.add_1_r, (Nat.eqb_sym a), (Nat.eqb_sym b). reflexivity. Qed.

Lemma fit_freq : forall n s b c, 0 < n -> b < n -> c < n -> (0 < seen_moves s b c)%Qc -> mget (fit_mle n false s) b c = mget (frequencies n s) b c.
Proof.
  intros n s b c Hn Hb Hc F. rewrite fit_mle_entries by assumption. unfold frequencies. rewrite mget_mk by assumption. unfold renorm.
  pose proof (departures_pos n s b c Hc F) as P. change (sumn n (seen_moves s b)) with (departures n s b).
  destruct (Qceqb_spec (departures n s b) 0) as [Z|Z]; [rewrite Z in P; destruct (Qclt_irr _ P)|reflexivity].
Qed.
Lemma sample_pos : forall s t, t < sample_length s -> S (S t) < length s.
Proof. intros s t H. unfold sample_length in H. lia. Qed.
Lemma fnp_spec : forall n s a b c, 0 < n -> (forall x, In x s -> x < n) -> In (a, b, c) (sample3 s) ->
  fnp_iteration (sample2 s) (fit_mle n false s) (a, b, c) = Ok (expected_triples n s a b c) /\ (0 < expected_triples n s a b c)%Qc.
Proof.
  intros n s a b c Hn Hs I. apply sample3_in in I. destruct I as (t & Ht & E). injection E as Ea Eb Ec. pose proof (sample_pos s t Ht) as Lt.
  assert (Hb : b < n) by (rewrite Eb; apply Hs, nth_In; lia). assert (Hc : c < n) by (rewrite Ec; apply Hs, nth_In; lia).
  assert (F : (0 < seen_moves s b c)%Qc) by (apply (occ_pos _ _ (S t)); [lia|]; rewrite Eb, Ec, !Nat.eqb_refl; reflexivity).
  split.
  - unfold fnp_iteration. replace (filter (fun r => Nat.eqb (fst r) a && Nat.eqb (snd r) b) (distinct pair_eqb (sample2 s))) with [(a, b)].
    + rewrite sample2_count. unfold expected_triples. rewrite (fit_freq n s b c Hn Hb Hc F). reflexivity.
    + symmetry. apply (filter_self pair_eqb pair_eqb_iff (distinct pair_eqb (sample2 s)) (a, b)); [apply distinct_nodup; exact pair_eqb_iff|]. apply (distinct_in pair_eqb pair_eqb_iff). apply sample2_in. exists t. split; [exact Ht|]. rewrite Ea, Eb. reflexivity.
  - unfold expected_triples. apply Qc_mul_pos.
    + apply (occ_pos _ _ t Ht). rewrite Ea, Eb, !Nat.eqb_refl. reflexivity.
    + unfold frequencies. rewrite mget_mk by assumption. apply Qc_div_pos; [exact F|]. apply (departures_pos n s b c Hc F).
Qed.
Lemma markov_chi2_spec : forall n s l, 0 < n -> (forall x, In x s -> x < n) -> incl l (sample3 s) -> markov_chi2 (sample3 s) (sample2 s) (fit_mle n false s) l = Ok (markov_statistic n s l).
Proof.
  intros n s l Hn Hs. induction l as [|[[a b] c] l IH]; intros I; [reflexivity|]. cbn [markov_chi2].
  destruct (fnp_spec n s a b c Hn Hs ltac:(apply I; left; reflexivity)) as [E P]. rewrite E. cbn [bind]. replace (Qceqb (expected_triples n s a b c) 0) with false by (symmetry; apply Qceqb_neq, Qc_lt_neq, P). cbn [negb]. cbv iota.
  rewrite IH by (intros x Hx; apply I; right; exact Hx). cbn [bind]. rewrite sample3_count. unfold markov_statistic. cbn [map]. rewrite lsum_cons'. reflexivity.
Qed.
Lemma markov_result : forall cdf states s sig l, test_arguments states s sig -> lists_triples (sample_length s) s l ->
  assess_markov_property cdf states s sig = Ok (conclude cdf true sig (EFin (Qc2R (markov_statistic (length states) s l))) (markov_dof states s)).
Proof.
  intros cdf states s sig l (H1 & H2 & H3 & H4 & H5 & H6) [L1 L2]. unfold assess_markov_property. rewrite (proj2 (labels_none_iff states states)) by auto. cbn [bind]. cbv zeta.
  rewrite (proj2 (seq_ok_iff _ s)) by auto. rewrite (proj2 (sig_ok_iff sig)) by auto. cbv iota.
  rewrite markov_chi2_spec; [|lia|exact H4|intros x Hx; exact (proj1 (distinct_in triple_eqb triple_eqb_iff _ x) Hx)]. cbn [bind]. do 4 f_equal. unfold markov_statistic. apply lsum_perm, Permutation_map.
  apply (distinct_perm triple_eqb triple_eqb_iff); [exact L1|]. intros x. rewrite L2, sample3_in. reflexivity.
Qed.
Lemma markov_args : forall cdf states s sig t, assess_markov_property cdf states s sig = Ok t -> test_arguments states s sig.
Proof.
  intros cdf states s sig t H. unfold assess_markov_property in H. destruct (validate_labels_input states None) as [st|] eqn:V; [|discriminate]. cbn [bind] in H. apply labels_none_iff in V. destruct V as (-> & V1 & V2). cbv zeta in H.
  destruct (sequence_okb (length states) s) eqn:S; [|discriminate]. destruct (significance_ok sig) eqn:G; [|discriminate]. apply seq_ok_iff in S. apply sig_ok_iff in G. unfold test_arguments. tauto.
Qed.
Lemma markov_nonneg : forall n s l, 0 < n -> (forall x, In x s -> x < n) -> lists_triples (sample_length s) s l -> (0 <= markov_statistic n s l)%Qc /\
  (markov_statistic n s l = 0q <-> forall a b c, In (a, b, c) l -> sample_triples s a b c = expected_triples n s a b c).
Proof.
  intros n s l Hn Hs [L1 L2]. unfold markov_statistic.
  assert (K : forall a b c, In (a, b, c) l -> (0 < expected_triples n s a b c)%Qc) by (intros a b c I; apply fnp_spec; [exact Hn|exact Hs|]; apply sample3_in, L2, I).
  assert (SQ : forall o e : Qc, (0 < e)%Qc -> (0 <= (o - e) * (o - e) / e)%Qc /\ ((o - e) * (o - e) / e = 0 -> o = e)%Qc).
  { intros o e P. split.
    - apply Qc_div_nonneg; [|exact P]. generalize (o - e)%Qc. intros z. destruct (Qclt_le_dec z 0); qcnra.
    - intros Z. assert (Y : ((o - e) * (o - e) = 0)%Qc). { rewrite <- (Qc_div_mul ((o - e) * (o - e)) e) by (apply Qc_lt_neq, P). rewrite Z. ring. }
      apply Qcmult_integral in Y. destruct Y; qclra. }
  set (g := fun x : nat * nat * nat => let '(a, b, c) := x in let o := sample_triples s a b c in let e := expected_triples n s a b c in ((o - e) * (o - e) / e)%Qc).
  assert (G : forall x, In x l -> (0 <= g x)%Qc) by (intros [[a b] c] I; apply SQ, K, I). split; [apply lsum_map_nonneg; exact G|]. split.
  - intros Z a b c I. apply SQ; [apply K, I|]. pose proof (lsum_map_ge g l (a, b, c) G I) as Q. rewrite Z in Q. apply Qcle_antisym; [exact Q|exact (G _ I)].
  - intros E. apply lsum_map_0. intros [[a b] c] I. cbn [g]. rewrite (E a b c I). unfold Qcminus, Qcdiv. rewrite Qcplus_opp_r. ring.
Qed.

(** ** degrees of freedom *)
Lemma append_len_inj : forall x x' y y', String.length x = String.length x' -> (x ++ y)%string = (x' ++ y')%string -> x = x' /\ y = y'.
Proof.
  induction x as [|c x IH]; intros [|c' x'] y y' L E; try discriminate; [split; [reflexivity|exact E]|]. cbn in E. injection E as -> E. injection L as L. destruct (IH x' y y' L E) as [-> ->]. split; reflexivity.
Qed.
Lemma label_inj : forall st i j, NoDup st -> i < length st -> j < length st -> label st i = label st j -> i = j.
Proof. intros st i j N Hi Hj E. apply (proj1 (NoDup_nth st ""%string) N i j Hi Hj E). Qed.
Lemma distinct_map_length : forall {A} (h : A -> string) (l : list string) (l' : list A), NoDup l' -> (forall x y, In x l' -> In y l' -> h x = h y -> x = y) -> (forall z, In z l <-> exists x, In x l' /\ h x = z) ->
  length (distinct String.eqb l) = length l'.
Proof.
  intros A h l l' N I E. rewrite <- (map_length h l'). apply Permutation_length. apply (distinct_perm String.eqb String.eqb_eq).
  - apply NoDup_map_inj; assumption.
  - intros z. rewrite in_map_iff, E. split; intros (x & H1 & H2); exists x; auto.
Qed.
Lemma markov_dof_spec : forall st s T P S0, NoDup st -> equal_length st -> (forall i, In i s -> i < length st) -> lists_triples (length s - 2) s T -> lists_pairs (length s - 1) s P -> lists_states s S0 ->
  markov_dof st s = (Z.of_nat (length T) - Z.of_nat (length P) + Z.of_nat (length S0) - 1)%Z.
Proof.
  intros st s T P S0 N EL Hs [T1 T2] [P1 P2] [S1 S2]. unfold markov_dof.
  assert (LE : forall i j, i < length st -> j < length st -> String.length (label st i) = String.length (label st j)) by (intros; apply EL; apply nth_In; assumption).
  assert (In0 : forall t, t < length s -> nth t s 0 < length st) by (intros; apply Hs, nth_In; assumption).
  rewrite (distinct_map_length (fun x : nat * nat * nat => let '(a, b, c) := x in (label st a ++ label st b ++ label st c)%string) _ T T1).
  2:{ intros [[a b] c] [[a' b'] c'] H H' E. apply T2 in H. apply T2 in H'. destruct H as (t & Ht & H). destruct H' as (t' & Ht' & H'). injection H as -> -> ->. injection H' as -> -> ->.
      apply append_len_inj in E; [|apply LE; apply In0; lia]. destruct E as [E1 E]. apply append_len_inj in E; [|apply LE; apply In0; lia]. destruct E as [E2 E3].
      apply label_inj in E1; [|exact N|apply In0; lia..]. apply label_inj in E2; [|exact N|apply In0; lia..]. apply label_inj in E3; [|exact N|apply In0; lia..]. rewrite E1, E2, E3. reflexivity. }
  2:{ intros z. rewrite in_tab. split.
      - intros (t & Ht & ->). eexists. split; [apply T2; exists t; split; [exact Ht|reflexivity]|]. cbv beta iota. rewrite Nat.add_1_r. replace (t + 2) with (S (S t)) by lia. reflexivity.
      - intros (x & Hx & <-). apply T2 in Hx. destruct Hx as (t & Ht & ->). exists t. split; [exact Ht|]. rewrite Nat.add_1_r. replace (t + 2) with (S (S t)) by lia. reflexivity. }
  rewrite (distinct_map_length (fun x : nat * nat => let '(a, b) := x in (label st a ++ label st b)%string) _ P P1).
  2:{ intros [a b] [a' b'] H H' E. apply P2 in H. apply P2 in H'. destruct H as (t & Ht & H). destruct H' as (t' & Ht' & H'). injection H as -> ->. injection H' as -> ->.
      apply append_len_inj in E; [|apply LE; apply In0; lia]. destruct E as [E1 E2].
      apply label_inj in E1; [|exact N|apply In0; lia..]. apply label_inj in E2; [|exact N|apply In0; lia..]. rewrite E1, E2. reflexivity. }
  2:{ intros z. rewrite in_tab. split.
      - intros (t & Ht & ->). eexists. split; [apply P2; exists t; split; [exact Ht|reflexivity]|]. cbv beta iota. rewrite Nat.add_1_r. reflexivity.
      - intros (x & Hx & <-). apply P2 in Hx. destruct Hx as (t & Ht & ->). exists t. split; [exact Ht|]. rewrite Nat.add_1_r. reflexivity. }
  rewrite (distinct_map_length (label st) _ S0 S1).
  2:{ intros x y Hx Hy E. apply (label_inj st); [exact N|apply Hs, S2, Hx|apply Hs, S2, Hy|exact E]. }
  2:{ intros z. rewrite in_map_iff. split; intros (x & H1 & H2); exists x; (split; [apply S2 in H2 || idtac; try assumption|]); auto; apply S2; assumption. }
  reflexivity.
Qed.
Lemma markov_spec : forall cdf states s sig t T T' P S0, assess_markov_property cdf states s sig = Ok t -> equal_length states ->
  lists_triples (sample_length s) s T' -> lists_triples (length s - 2) s T -> lists_pairs (length s - 1) s P -> lists_states s S0 ->
  let n := length states in let dof := (Z.of_nat (length T) - Z.of_nat (length P) + Z.of_nat (length S0) - 1)%Z in
  (dof <> 0%Z -> reports cdf sig (EFin (Q2R (this (markov_statistic n s T')))) dof t) /\ (0 <= markov_statistic n s T')%Qc /\
  (markov_statistic n s T' = 0q <-> forall a b c, In (a, b, c) T' -> sample_triples s a b c = expected_triples n s a b c).
Proof.
  intros cdf states s sig t T T' P S0 H EL HT' HT HP HS n dof. pose proof (markov_args _ _ _ _ _ H) as TA. rewrite (markov_result cdf states s sig T' TA HT') in H. destruct TA as (A1 & (A2 & A2' & _) & A3 & A4 & A5 & A6).
  rewrite (markov_dof_spec states s T P S0 A2' EL A4 HT HP HS) in H. fold dof in H. injection H as <-. split.
  - intros D. rewrite conclude_nonzero by exact D. apply conclude_reports.
  - apply markov_nonneg; [lia|exact A4|exact HT'].
Qed.
Lemma repeat_tab : forall {A} m (f : nat -> A) x, 0 < m -> (forall t, t < m -> f t = x) -> forall eqb : A -> A -> bool, (forall x y, eqb x y = true <-> x = y) -> length (distinct eqb (tab m f)) = 1.
Proof.
  intros A m f x Hm E eqb Q. rewrite (Permutation_length (distinct_perm eqb Q (tab m f) [x] ltac:(repeat constructor; intros []) ltac:(intros y; rewrite in_tab; split; [intros [<-|[]]; exists 0; split; [exact Hm|symmetry; apply E, Hm]|intros (t & Ht & ->); left; symmetry; apply E, Ht]))). reflexivity.
Qed.
Lemma markov_constant : forall cdf states i m sig, test_arguments states (repeat i (3 + m)) sig ->
  exists t, assess_markov_property cdf states (repeat i (3 + m)) sig = Ok t /\ t_reject t = Some true /\ t_pvalue t = Some 0%R.
Proof.
  intros cdf states i m sig TA. set (s := repeat i (3 + m)) in *.
  assert (NT : forall t, t < 3 + m -> nth t s 0 = i) by (intros t Ht; apply (repeat_spec (3 + m)); apply nth_In; unfold s; rewrite repeat_length; exact Ht).
  assert (L : length s = 3 + m) by apply repeat_length.
  eexists. split; [apply (markov_result cdf states s sig (distinct triple_eqb (sample3 s)) TA); split; [apply distinct_nodup; exact triple_eqb_iff|intros x; rewrite (distinct_in triple_eqb triple_eqb_iff); apply sample3_in]|].
  replace (markov_dof states s) with 0%Z.
  - match goal with |- context [conclude cdf true sig ?x 0] => destruct (conclude_zero cdf sig x ltac:(apply TA)) as (A & B & _) end. split; [exact A|exact B].
  - symmetry. unfold markov_dof. rewrite L.
    rewrite (repeat_tab (3 + m - 1) _ (label states i ++ label states i)%string) by (lia || (intros; rewrite !NT by lia; reflexivity) || exact String.eqb_eq).
    rewrite (repeat_tab (3 + m - 2) _ (label states i ++ label states i ++ label states i)%string) by (lia || (intros; rewrite !NT by lia; reflexivity) || exact String.eqb_eq).
    replace (map (label states) s) with (tab (3 + m) (fun _ => label states i)).
    2:{ unfold tab, s. generalize (3 + m) as k. clear. intros k. assert (G : forall a, map (fun _ => label states i) (seq a k) = map (label states) (repeat i k)) by (induction k as [|k IH]; intros a; [reflexivity|]; cbn [seq repeat map]; f_equal; apply IH). apply G. }
    rewrite (repeat_tab (3 + m) _ (label states i)) by (lia || (intros; reflexivity) || exact String.eqb_eq). reflexivity.
Qed.
