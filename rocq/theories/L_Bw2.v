(** L_Bw2: the fitting loop with Baum-Welch counts. *)
From Verif Require Export L_Bw L_Hmm4.
From Coq Require Import Reals Qreals Lra.
Close Scope Q_scope. Close Scope R_scope.
Open Scope nat_scope.
Open Scope res_scope.

Lemma usable_dec : forall n k P E x seqs, 0 < n -> hmm_ok n k P E x -> (forall s, In s seqs -> obs_ok k s) -> usable n P E x seqs (filter (bw_dec n k P E x) seqs).
Proof.
  intros n k P E x seqs Hn HM Hs. exists (bw_dec n k P E x). split; [reflexivity|]. intros s Hin. pose proof (bw_counts n k P E x s Hn HM (Hs s Hin)) as C. unfold bw_dec.
  destruct (fit_baum_welch n k P E x s) as [[pc ec]|]; split; intros T; try discriminate; try reflexivity; [apply C|exfalso; exact (C T)].
Qed.
Lemma bw_iteration : forall n k P E x seqs pc ec, 0 < n -> hmm_ok n k P E x -> (forall s, In s seqs -> obs_ok k s) ->
  fit_accumulate (fit_func FitBW n k P E x) seqs (zeros n n) (zeros n k) = (pc, ec) ->
  forallb (fun i => negb (Qceqb (rowsum pc i) 0)) (seq 0 n) = true -> forallb (fun i => negb (Qceqb (rowsum ec i) 0)) (seq 0 n) = true ->
  iteration n k x seqs P E (div_rows pc) (div_rows ec).
Proof.
  intros n k P E x seqs pc ec Hn HM Hs EA R1 R2. pose proof HM as (HP & HE & HX).
  assert (A : nonneg_mat n n pc /\ nonneg_mat n k ec).
  { pose proof (fit_accumulate_nonneg n k (fit_func FitBW n k P E x) seqs (zeros n n) (zeros n k) Hn) as Z. rewrite EA in Z. apply Z.
    - intros s pc0 ec0 Hin Hf. eapply fit_func_nonneg; [exact Hn|exact HM|apply Hs; exact Hin|exact Hf].
    - apply zeros_nonneg.
    - apply zeros_nonneg. }
  destruct A as [A1 A2]. pose proof (rows_nonzero n n pc Hn (proj1 A1) R1) as N1. pose proof (rows_nonzero n k ec Hn (proj1 A2) R2) as N2.
  pose proof (div_rows_nonneg_stochastic n n pc Hn A1 N1) as B1. pose proof (div_rows_nonneg_stochastic n k ec Hn A2 N2) as B2.
  pose proof (accumulate_counts n k P E x seqs (zeros n n) (zeros n k) Hn HM Hs (proj1 (zeros_nonneg n n)) (proj1 (zeros_nonneg n k))) as C.
  rewrite EA in C. cbv zeta in C. cbn [fst snd] in C. destruct C as (_ & _ & C1 & C2).
  set (D := filter (bw_dec n k P E x) seqs) in *.
  assert (C1' : forall u v, u < n -> v < n -> mget pc u v = lsum (map (fun s => mean_moves n P E x s u v) D)).
  { intros u v Hu Hv. rewrite C1 by assumption. unfold zeros. rewrite mget_mk by assumption. ring. }
  assert (C2' : forall u v, u < n -> v < k -> mget ec u v = lsum (map (fun s => mean_symbols n P E x s u v) D)).
  { intros u v Hu Hv. rewrite C2 by assumption. unfold zeros. rewrite mget_mk by assumption. ring. }
  assert (HM' : hmm_ok n k (div_rows pc) (div_rows ec) x) by (split; [exact B1|split; [exact B2|exact HX]]).
  assert (ST : em_step n k x D P E (div_rows pc) (div_rows ec)).
  { split; intros u Hu.
    - rewrite (sumn_ext n _ (mget pc u)) by (intros v Hv; symmetry; apply C1'; assumption). split.
      + destruct (pos_or_0 (sumn n (mget pc u))) as [Z|Z]; [apply sumn_nonneg; intros; apply A1; assumption|exact Z|exfalso; exact (N1 u Hu Z)].
      + intros v Hv. rewrite (mget_div_rows n n) by (try apply A1; assumption). rewrite C1' by assumption. reflexivity.
    - rewrite (sumn_ext k _ (mget ec u)) by (intros v Hv; symmetry; apply C2'; assumption). split.
      + destruct (pos_or_0 (sumn k (mget ec u))) as [Z|Z]; [apply sumn_nonneg; intros; apply A2; assumption|exact Z|exfalso; exact (N2 u Hu Z)].
      + intros v Hv. rewrite (mget_div_rows n k) by (try apply A2; assumption). rewrite C2' by assumption. reflexivity. }
  assert (HD : forall s, In s D -> obs_ok k s /\ (0 < likelihood n P E x s)%Qc).
  { intros s Hin. apply filter_In in Hin. destruct Hin as [Hin Hd]. split; [apply Hs; exact Hin|]. pose proof (bw_counts n k P E x s Hn HM (Hs s Hin)) as C. unfold bw_dec in Hd.
    destruct (fit_baum_welch n k P E x s) as [[pc0 ec0]|]; [apply C|discriminate]. }
  split; [exact HM'|]. exists D. split; [apply usable_dec; assumption|]. split; [exact ST|]. split; [|apply (em_increases n k P E (div_rows pc) (div_rows ec) x D Hn HM HM' HD ST)].
  intros ZD. destruct (proj1 ST 0 Hn) as [Sp _]. rewrite ZD in Sp. rewrite sumn_0 in Sp by reflexivity. exact (Qclt_irr _ Sp).
Qed.
Lemma fit_loop_trace : forall n k x seqs conv, 0 < n -> (forall s, In s seqs -> obs_ok k s) ->
  forall fuel t P E p e, hmm_ok n k P E x -> fit_loop FitBW n k x seqs conv fuel t P E = Ok (p, e) ->
  exists m (tr : nat -> mat * mat), 1 <= m <= fuel /\ tr 0 = (P, E) /\ tr m = (p, e) /\ conv (t + (m - 1)) = true /\ (forall j, j < m - 1 -> conv (t + j) = false) /\
    forall j, j < m -> iteration n k x seqs (fst (tr j)) (snd (tr j)) (fst (tr (S j))) (snd (tr (S j))).
Proof.
  intros n k x seqs conv Hn Hs fuel; induction fuel as [|fuel IH]; intros t P E p e HM H; [discriminate|].
  cbn [fit_loop] in H. destruct (fit_accumulate (fit_func FitBW n k P E x) seqs (zeros n n) (zeros n k)) as [pc ec] eqn:EA.
  destruct (forallb (fun i => negb (Qceqb (rowsum pc i) 0)) (seq 0 n)) eqn:R1; [|discriminate].
  destruct (forallb (fun i => negb (Qceqb (rowsum ec i) 0)) (seq 0 n)) eqn:R2; [|discriminate].
  pose proof (bw_iteration n k P E x seqs pc ec Hn HM Hs EA R1 R2) as I.
  destruct (conv t) eqn:Ec.
  - injection H as <- <-. exists 1, (fun j => match j with 0 => (P, E) | _ => (div_rows pc, div_rows ec) end). split; [lia|]. split; [reflexivity|]. split; [reflexivity|].
    split; [rewrite Nat.add_0_r; exact Ec|]. split; [intros; lia|]. intros j Hj. replace j with 0 by lia. exact I.
  - destruct (IH (S t) _ _ p e (proj1 I) H) as (m & tr & M1 & T0 & Tm & Cm & Cf & Ti). exists (S m), (fun j => match j with 0 => (P, E) | S j => tr j end).
    split; [lia|]. split; [reflexivity|]. split; [exact Tm|]. split; [replace (t + (S m - 1)) with (S t + (m - 1)) by lia; exact Cm|]. split.
    + intros [|j] Hj; [rewrite Nat.add_0_r; exact Ec|]. replace (t + S j) with (S t + j) by lia. apply Cf. lia.
    + intros [|j] Hj; [|apply Ti; lia]. cbn [fst snd]. rewrite T0. exact I.
Qed.
Lemma fit_inv : forall ft states symbols k P E seqs init conv h, stochastic (length states) P -> row_stochastic (length states) k E ->
  fit ft states symbols P E seqs init conv = Ok h ->
  0 < length states /\ (forall s, In s seqs -> obs_ok k s) /\
  fit_loop ft (length states) k (match init with None => M_Hmm.uniform (length states) | Some v => v end) seqs conv 500 0 P E = Ok (h_p h, h_e h).
Proof.
  intros ft states symbols k P E seqs init conv h HP HE H. unfold fit in H.
  destruct (validate_labels_input states None) as [st|] eqn:V1; [|discriminate]. cbn [bind] in H. destruct (labels_input_inv _ _ _ V1) as (-> & _ & L2).
  destruct (validate_labels_input symbols None) as [sb|] eqn:V2; [|discriminate]. cbn [bind] in H.
  destruct (Nat.eqb (nrows P) (length states)); [|discriminate]. destruct (Nat.eqb (nrows E) (nrows P)); [|discriminate].
  destruct (forallb (sequence_okb (length sb)) seqs); [|discriminate]. destruct (negb (existsb (fun s => mem_str s sb) states)); [|discriminate].
  destruct (forallb (forallb (fun y => Nat.ltb y (ncols E))) seqs) eqn:F; [|discriminate]. cbv iota in H.
  assert (Hn : 0 < length states) by lia. rewrite (wf_ncols _ _ E (proj1 HE) Hn) in F.
  destruct (hmm_fit ft P E _ seqs conv) as [[p e]|] eqn:EF; [|discriminate]. cbn [bind fst snd] in H.
  split; [exact Hn|]. split.
  - intros s Hs o Ho. rewrite forallb_forall in F. specialize (F s Hs). rewrite forallb_forall in F. apply Nat.ltb_lt, F. exact Ho.
  - unfold hmm_fit in EF. rewrite (st_rows _ P HP), (wf_ncols _ _ E (proj1 HE) Hn) in EF. unfold hmm_init in H.
    destruct (negb (existsb (fun s => mem_str s sb) states)); [|discriminate]. injection H as <-. cbn [h_p h_e]. exact EF.
Qed.

Lemma fit_trace : forall states symbols k P E seqs x conv h, hmm_ok (length states) k P E x ->
  fit FitBW states symbols P E seqs (Some x) conv = Ok h ->
  exists m (tr : nat -> mat * mat), 1 <= m <= 500 /\ tr 0 = (P, E) /\ tr m = (h_p h, h_e h) /\ conv (m - 1) = true /\ (forall j, j < m - 1 -> conv j = false) /\
    forall j, j < m -> iteration (length states) k x seqs (fst (tr j)) (snd (tr j)) (fst (tr (S j))) (snd (tr (S j))).
Proof.
  intros states symbols k P E seqs x conv h HM H. destruct (fit_inv _ _ _ k _ _ _ _ _ _ (proj1 HM) (proj1 (proj2 HM)) H) as (Hn & Hs & F).
  exact (fit_loop_trace _ k x seqs conv Hn Hs 500 0 P E _ _ HM F).
Qed.
Lemma fit_default : forall ft states symbols P E seqs conv, fit ft states symbols P E seqs None conv = fit ft states symbols P E seqs (Some (tab (length states) (fun _ => 1 / Qcn (length states))%Qc)) conv.
Proof.
  intros. unfold fit. destruct (validate_labels_input states None) as [st|] eqn:V1; cbn [bind]; [|reflexivity]. destruct (labels_input_inv _ _ _ V1) as (-> & _). unfold M_Hmm.uniform. reflexivity.
Qed.

(** a single sequence: nothing is skipped, so the likelihood never decreases *)
Lemma fit_single : forall states symbols k P E s x conv h, hmm_ok (length states) k P E x ->
  fit FitBW states symbols P E [s] (Some x) conv = Ok h ->
  (0 < likelihood (length states) P E x s)%Qc /\ (likelihood (length states) P E x s <= likelihood (length states) (h_p h) (h_e h) x s)%Qc.
Proof.
  intros states symbols k P E s x conv h HM H. destruct (fit_trace _ _ k _ _ _ _ _ _ HM H) as (m & tr & M1 & T0 & Tm & _ & _ & Ti).
  assert (G : forall j, j < m -> (0 < likelihood (length states) (fst (tr j)) (snd (tr j)) x s)%Qc /\
    (likelihood (length states) (fst (tr j)) (snd (tr j)) x s <= likelihood (length states) (fst (tr (S j))) (snd (tr (S j))) x s)%Qc).
  { intros j Hj. destruct (Ti j Hj) as (_ & D & (f & Df & _) & _ & Dn & L0 & L1). cbn [filter] in Df. destruct (f s); [|congruence]. subst D.
    unfold total_likelihood, prod_list in L0, L1. cbn [map fold_right] in L0, L1. rewrite !Qcmult_1_r in *. split; assumption. }
  split.
  - specialize (G 0 ltac:(lia)). rewrite T0 in G. apply G.
  - assert (K : forall j, j <= m -> (likelihood (length states) P E x s <= likelihood (length states) (fst (tr j)) (snd (tr j)) x s)%Qc).
    { induction j as [|j IH]; intros Hj; [rewrite T0; apply Qcle_refl|]. eapply Qcle_trans; [apply IH; lia|]. apply G. lia. }
    specialize (K m (Nat.le_refl _)). rewrite Tm in K. exact K.
Qed.
