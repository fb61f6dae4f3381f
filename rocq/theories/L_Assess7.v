(** L_Assess7: accepted arguments of the tests, levels of significance, example data. *)
From Verif Require Export L_Assess2 L_Assess6.
From Coq Require Import Reals Qreals Lra.
Close Scope Q_scope. Close Scope R_scope.
Open Scope nat_scope.
Open Scope res_scope.

Lemma first_order_accepts : forall cdf states s sig, (exists t, assess_first_order cdf states s sig = Ok t) <-> test_arguments states s sig.
Proof.
  intros. rewrite first_order_unfold. split; [intros [t H]; apply prologue_inv in H; apply H|]. intros TA. rewrite prologue_ok by exact TA. cbv zeta. destruct (sum_opt _); eexists; reflexivity.
Qed.
Lemma stationarity_accepts : forall cdf states s blocks sig, (exists t, assess_stationarity cdf states s blocks sig = Ok t) <-> test_arguments states s sig /\ 1 <= blocks.
Proof.
  intros. split.
  - intros [t H]. destruct blocks as [|b].
    + exfalso. unfold assess_stationarity in H. destruct (validate_labels_input states None); [|discriminate]. cbn [bind] in H. cbv zeta in H. destruct (sequence_okb _ s); discriminate.
    + rewrite stationarity_unfold in H by lia. apply prologue_inv in H. split; [apply H|lia].
  - intros [TA B]. rewrite stationarity_unfold by exact B. rewrite prologue_ok by exact TA. cbv zeta. destruct (sum_opt _); eexists; reflexivity.
Qed.
Lemma markov_accepts : forall cdf states s sig, (exists t, assess_markov_property cdf states s sig = Ok t) <-> test_arguments states s sig.
Proof.
  intros. split; [intros [t H]; apply (markov_args _ _ _ _ _ H)|]. intros TA. eexists. apply (markov_result cdf states s sig (distinct triple_eqb (sample3 s)) TA). split; [apply distinct_nodup; exact triple_eqb_iff|]. intros x. rewrite (distinct_in triple_eqb triple_eqb_iff). apply sample3_in.
Qed.
Lemma homogeneity_accepts : forall cdf states seqs sig, (exists t, assess_homogeneity cdf states seqs sig = Ok t) <-> sequences_arguments states seqs sig.
Proof.
  intros. split; [intros [t H]; apply (homogeneity_args _ _ _ _ _ H)|]. intros A. destruct (homogeneity_result cdf states seqs sig A) as [R1 R2]. pose proof (share_iff seqs) as SI.
  destruct (existsb _ (seq 0 (length seqs))); [eexists; apply R2, SI; reflexivity|]. eexists. apply R1. intros C. apply SI in C. discriminate.
Qed.
Lemma compat_accepts : forall cdf mc s sig, (exists t, assess_theoretical_compatibility cdf mc s sig = Ok t) <-> sequence_arguments (length (ch_p mc)) s sig.
Proof.
  intros. unfold assess_theoretical_compatibility, sequence_arguments. cbv zeta. change (nrows (ch_p mc)) with (length (ch_p mc)). pose proof (seq_ok_iff (length (ch_p mc)) s) as S1. pose proof (sig_ok_iff sig) as S2.
  destruct (sequence_okb _ s); [|split; [intros [t H]; discriminate|intros (A & B & _); destruct S1 as [_ S1]; specialize (S1 (conj A B)); discriminate]].
  destruct (significance_ok sig); [|split; [intros [t H]; discriminate|intros (_ & _ & A); destruct S2 as [_ S2]; specialize (S2 A); discriminate]].
  split; [intros _; tauto|]. intros _. cbv iota. destruct (forallb _ (seq 0 (length (ch_p mc)))); eexists; reflexivity.
Qed.

Lemma conclude_level : forall cdf z sig sig' x dof, (sig <= sig')%Qc -> same_but_level (conclude cdf z sig x dof) (conclude cdf z sig' x dof).
Proof.
  intros cdf z sig sig' x dof L. split; [reflexivity|]. split; [reflexivity|]. split; [reflexivity|]. split; [|split; discriminate]. cbn [t_reject conclude]. intros H. injection H as H. f_equal. apply below_iff in H. destruct H as (p & E & P). apply below_iff. exists p. split; [exact E|].
  apply Qc2R_le in L. unfold Qc2R in L. lra.
Qed.
Lemma same_level_refl : forall t, same_but_level t t. Proof. intros t. unfold same_but_level. tauto. Qed.
Lemma first_order_level : forall cdf states s sig sig' t t', (sig <= sig')%Qc -> assess_first_order cdf states s sig = Ok t -> assess_first_order cdf states s sig' = Ok t' -> same_but_level t t'.
Proof.
  intros cdf states s sig sig' t t' L H H'. rewrite first_order_unfold in H, H'. apply prologue_inv in H, H'. destruct H as [_ H]. destruct H' as [_ H']. cbv zeta in H, H'. destruct (sum_opt _); injection H as <-; injection H' as <-; [apply conclude_level, L|apply same_level_refl].
Qed.
Lemma stationarity_level : forall cdf states s blocks sig sig' t t', (sig <= sig')%Qc -> assess_stationarity cdf states s blocks sig = Ok t -> assess_stationarity cdf states s blocks sig' = Ok t' -> same_but_level t t'.
Proof.
  intros cdf states s blocks sig sig' t t' L H H'. assert (B : 1 <= blocks) by (apply (stationarity_accepts cdf states s blocks sig); exists t; exact H). rewrite stationarity_unfold in H, H' by exact B. apply prologue_inv in H, H'. destruct H as [_ H]. destruct H' as [_ H']. cbv zeta in H, H'. destruct (sum_opt _); injection H as <-; injection H' as <-; [apply conclude_level, L|apply same_level_refl].
Qed.
Lemma markov_level : forall cdf states s sig sig' t t', (sig <= sig')%Qc -> assess_markov_property cdf states s sig = Ok t -> assess_markov_property cdf states s sig' = Ok t' -> same_but_level t t'.
Proof.
  intros cdf states s sig sig' t t' L H H'. pose proof (markov_args _ _ _ _ _ H) as A. pose proof (markov_args _ _ _ _ _ H') as A'.
  assert (LT : lists_triples (sample_length s) s (distinct triple_eqb (sample3 s))) by (split; [apply distinct_nodup; exact triple_eqb_iff|intros x; rewrite (distinct_in triple_eqb triple_eqb_iff); apply sample3_in]).
  rewrite (markov_result cdf states s sig _ A LT) in H. rewrite (markov_result cdf states s sig' _ A' LT) in H'. injection H as <-. injection H' as <-. apply conclude_level, L.
Qed.
Lemma homogeneity_level : forall cdf states seqs sig sig' t t', (sig <= sig')%Qc -> assess_homogeneity cdf states seqs sig = Ok t -> assess_homogeneity cdf states seqs sig' = Ok t' -> same_but_level t t'.
Proof.
  intros cdf states seqs sig sig' t t' L H H'. pose proof (homogeneity_args _ _ _ _ _ H) as A. pose proof (homogeneity_args _ _ _ _ _ H') as A'. destruct (homogeneity_result cdf states seqs sig A) as [R1 R2]. destruct (homogeneity_result cdf states seqs sig' A') as [R1' R2'].
  assert (D : share_a_state seqs \/ ~ share_a_state seqs). { pose proof (share_iff seqs) as SI. destruct (existsb _ (seq 0 (length seqs))); [left; apply SI; reflexivity|right; intros C; apply SI in C; discriminate]. }
  destruct D as [D|D].
  - rewrite (R2 D) in H. rewrite (R2' D) in H'. injection H as <-. injection H' as <-. apply conclude_level, L.
  - rewrite (R1 D) in H. rewrite (R1' D) in H'. injection H as <-. injection H' as <-. apply same_level_refl.
Qed.
Lemma compat_level : forall cdf mc s sig sig' t t', (sig <= sig')%Qc -> assess_theoretical_compatibility cdf mc s sig = Ok t -> assess_theoretical_compatibility cdf mc s sig' = Ok t' -> same_but_level t t'.
Proof.
  intros cdf mc s sig sig' t t' L H H'. unfold assess_theoretical_compatibility in H, H'. cbv zeta in H, H'. destruct (sequence_okb _ s); [|discriminate]. destruct (significance_ok sig); [|discriminate]. destruct (significance_ok sig'); [|discriminate]. cbv iota in H, H'.
  destruct (forallb _ (seq 0 (nrows (ch_p mc)))); injection H as <-; injection H' as <-; [apply conclude_level, L|apply same_level_refl].
Qed.
(** the names of the states *)
Lemma markov_names : forall cdf sig, (0 < sig)%Qc -> (sig <= Q2Qc (1 # 5))%Qc -> let s := [0; 1; 0; 1; 0; 1] in
  exists t t', assess_markov_property cdf ["1"; "11"]%string s sig = Ok t /\ assess_markov_property cdf ["a"; "b"]%string s sig = Ok t' /\ t_chi2 t = t_chi2 t' /\ t_dof t = Some 2%Z /\ t_dof t' = Some 1%Z.
Proof.
  intros cdf sig L U s. assert (TA : forall st, validate_labels_input st None = Ok st -> length st = 2 -> test_arguments st s sig).
  { intros st V L2. apply labels_none_iff in V. destruct V as (_ & V1 & V2). unfold test_arguments. split; [exact V1|]. split; [exact V2|]. split; [cbn; lia|]. split; [|auto]. rewrite L2. intros i I. cbn in I. repeat destruct I as [<-|I]; lia. }
  assert (LT : lists_triples (sample_length s) s (distinct triple_eqb (sample3 s))) by (split; [apply distinct_nodup; exact triple_eqb_iff|intros x; rewrite (distinct_in triple_eqb triple_eqb_iff); apply sample3_in]).
  eexists. eexists. split; [apply (markov_result cdf _ s sig _ (TA ["1"; "11"]%string eq_refl eq_refl) LT)|]. split; [apply (markov_result cdf _ s sig _ (TA ["a"; "b"]%string eq_refl eq_refl) LT)|]. repeat split.
Qed.
Lemma test_args_dec : forall st s sig, validate_labels_input st None = Ok st -> sequence_okb (length st) s && significance_ok sig = true -> test_arguments st s sig.
Proof. intros st s sig V H. apply labels_none_iff in V. apply andb_true_iff in H. destruct H as [H1 H2]. apply seq_ok_iff in H1. apply sig_ok_iff in H2. unfold test_arguments. tauto. Qed.
Lemma full_dec : forall r c O, forallb (fun i => Qcltb 0 (row_total c O i)) (seq 0 r) && forallb (fun j => Qcltb 0 (column_total r O j)) (seq 0 c) = true -> full_table r c O.
Proof. intros r c O H. apply andb_true_iff in H. destruct H as [H1 H2]. split; intros i Hi; apply Qcltb_lt; [exact (proj1 (forallb_seq _ _) H1 i Hi)|exact (proj1 (forallb_seq _ _) H2 i Hi)]. Qed.
Lemma seq_args_dec : forall n s sig, sequence_okb n s && significance_ok sig = true -> sequence_arguments n s sig.
Proof. intros n s sig H. apply andb_true_iff in H. destruct H as [H1 H2]. apply seq_ok_iff in H1. apply sig_ok_iff in H2. unfold sequence_arguments. tauto. Qed.
Lemma seqs_args_dec : forall st seqs sig, (if validate_labels_input st None then true else false) && Nat.leb 2 (length seqs) && forallb (sequence_okb (length st)) seqs && significance_ok sig = true -> sequences_arguments st seqs sig.
Proof.
  intros st seqs sig H. apply andb_true_iff in H. destruct H as [H H4]. apply andb_true_iff in H. destruct H as [H H3]. apply andb_true_iff in H. destruct H as [H1 H2]. destruct (validate_labels_input st None) as [st'|] eqn:V; [|discriminate].
  apply labels_none_iff in V. destruct V as (-> & V1 & V2). apply Nat.leb_le in H2. apply sig_ok_iff in H4. rewrite forallb_forall in H3. unfold sequences_arguments. split; [exact V1|]. split; [exact V2|]. split; [exact H2|]. split; [|exact H4]. intros s Hs. apply seq_ok_iff, H3, Hs.
Qed.
Lemma compat_infinite : forall cdf, exists mc s t, valid_chain 2 mc /\ path_prob (ch_p mc) (hd 0%nat s) (tl s) = Q2Qc (1 # 2) /\
  assess_theoretical_compatibility cdf mc s (Q2Qc (1 # 20)) = Ok t /\ t_chi2 t = Some EInf.
Proof.
  intros cdf. exists (mkchain [[Q2Qc (1 # 2); Q2Qc (1 # 2)]; [0q; 1q]] ["a"; "b"]%string), [0; 1; 1; 1], (conclude cdf false (Q2Qc (1 # 20)) EInf 1%Z). split; [|split; [apply Qc_is_canon; reflexivity|split; reflexivity]].
  split; [lia|]. split; [apply stochasticb_ok; vm_compute; reflexivity|]. assert (V : validate_labels_input ["a"; "b"]%string None = Ok ["a"; "b"]%string) by reflexivity. apply labels_none_iff in V. apply V.
Qed.
Lemma homogeneity_unbounded : forall (cdf : chi2_cdf) (B : R), exists s s' t x, frequencies 2 s = frequencies 2 s' /\
  assess_homogeneity cdf ["a"; "b"]%string [s; s'] (Q2Qc (1 # 20)) = Ok t /\ t_chi2 t = Some (EFin x) /\ (B < x)%R.
Proof.
  intros cdf B. destruct (long_unbounded B) as (m & Hm & L). exists (long_run m), (long_run 1).
  assert (A : sequences_arguments ["a"; "b"]%string [long_run m; long_run 1] (Q2Qc (1 # 20))).
  { assert (V : validate_labels_input ["a"; "b"]%string None = Ok ["a"; "b"]%string) by reflexivity. apply labels_none_iff in V. destruct V as (_ & V1 & V2). split; [exact V1|]. split; [exact V2|]. split; [cbn; lia|]. split; [|split; vm_compute; [reflexivity|discriminate]].
    intros s [<-|[<-|[]]]; (split; [unfold long_run; cbn [length]; lia|]); unfold long_run; intros i [<-|[<-|H]]; cbn [length]; try lia; apply repeat_spec in H; lia. }
  destruct (homogeneity_result cdf _ _ _ A) as [_ R]. eexists. eexists. split; [rewrite !long_freq by lia; reflexivity|]. split; [apply R; exists 0, 1, 0; cbn; intuition lia|]. split; [reflexivity|exact L].
Qed.
Lemma markov_example : forall cdf, let s := [0; 1; 0; 1; 0; 1] in
  (exists t, assess_markov_property cdf ["a"; "b"]%string s (Q2Qc (1 # 20)) = Ok t) /\ equal_length ["a"; "b"]%string /\ sample_length s = length s - 2 /\
  lists_triples (length s - 2) s [(0, 1, 0); (1, 0, 1)] /\ lists_pairs (length s - 1) s [(0, 1); (1, 0)] /\ lists_states s [0; 1].
Proof.
  intros cdf s. split; [apply markov_accepts; apply test_args_dec; vm_compute; reflexivity|]. split; [intros x y [<-|[<-|[]]] [<-|[<-|[]]]; reflexivity|]. split; [reflexivity|]. split; [|split].
  - split; [repeat constructor; cbn; intuition discriminate|]. intros x. split.
    + intros [<-|[<-|[]]]; [exists 0|exists 1]; (split; [cbn; lia|reflexivity]).
    + intros (t & Ht & ->). cbn in Ht. destruct t as [|[|[|[|t]]]]; [left|right; left|left|right; left|lia]; reflexivity.
  - split; [repeat constructor; cbn; intuition discriminate|]. intros x. split.
    + intros [<-|[<-|[]]]; [exists 0|exists 1]; (split; [cbn; lia|reflexivity]).
    + intros (t & Ht & ->). cbn in Ht. destruct t as [|[|[|[|[|t]]]]]; [left|right; left|left|right; left|left|lia]; reflexivity.
  - split; [repeat constructor; cbn; intuition discriminate|]. intros x. cbn. intuition.
Qed.
Lemma tests_accept : forall cdf states s seqs blocks mc sig,
  ((exists t, assess_first_order cdf states s sig = Ok t) <-> test_arguments states s sig) /\
  ((exists t, assess_markov_property cdf states s sig = Ok t) <-> test_arguments states s sig) /\
  ((exists t, assess_stationarity cdf states s blocks sig = Ok t) <-> test_arguments states s sig /\ 1 <= blocks) /\
  ((exists t, assess_homogeneity cdf states seqs sig = Ok t) <-> sequences_arguments states seqs sig) /\
  ((exists t, assess_theoretical_compatibility cdf mc s sig = Ok t) <-> sequence_arguments (length (ch_p mc)) s sig).
Proof.
  intros. split; [apply first_order_accepts|]. split; [apply markov_accepts|]. split; [apply stationarity_accepts|]. split; [apply homogeneity_accepts|apply compat_accepts].
Qed.
Lemma tests_levels : forall cdf states s seqs blocks mc sig sig' t t', (sig <= sig')%Qc ->
  (assess_first_order cdf states s sig = Ok t -> assess_first_order cdf states s sig' = Ok t' -> same_but_level t t') /\
  (assess_markov_property cdf states s sig = Ok t -> assess_markov_property cdf states s sig' = Ok t' -> same_but_level t t') /\
  (assess_stationarity cdf states s blocks sig = Ok t -> assess_stationarity cdf states s blocks sig' = Ok t' -> same_but_level t t') /\
  (assess_homogeneity cdf states seqs sig = Ok t -> assess_homogeneity cdf states seqs sig' = Ok t' -> same_but_level t t') /\
  (assess_theoretical_compatibility cdf mc s sig = Ok t -> assess_theoretical_compatibility cdf mc s sig' = Ok t' -> same_but_level t t').
Proof.
  intros. split; [apply first_order_level; assumption|]. split; [apply markov_level; assumption|]. split; [apply stationarity_level; assumption|]. split; [apply homogeneity_level; assumption|apply compat_level; assumption].
Qed.
(** example chain *)
Definition ex_half : mat := [[Q2Qc (1 # 2); Q2Qc (1 # 2)]; [Q2Qc (1 # 2); Q2Qc (1 # 2)]].
