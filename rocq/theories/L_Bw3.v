(** L_Bw3: fitting by decoded paths ('map' and 'viterbi'). *)
From Verif Require Export L_Bw2 ExH.
From Coq Require Import Reals Qreals Lra.
Close Scope Q_scope. Close Scope R_scope.
Open Scope nat_scope.
Open Scope res_scope.

Lemma fit_loop_last : forall ft n k x seqs conv, 0 < n -> distribution n x -> (forall s, In s seqs -> obs_ok k s) ->
  forall fuel t P E p e, stochastic n P -> row_stochastic n k E -> fit_loop ft n k x seqs conv fuel t P E = Ok (p, e) ->
  exists P0 E0 pc ec, hmm_ok n k P0 E0 x /\ fit_accumulate (fit_func ft n k P0 E0 x) seqs (zeros n n) (zeros n k) = (pc, ec) /\
    forallb (fun i => negb (Qceqb (rowsum pc i) 0)) (seq 0 n) = true /\ forallb (fun i => negb (Qceqb (rowsum ec i) 0)) (seq 0 n) = true /\
    p = div_rows pc /\ e = div_rows ec.
Proof.
  intros ft n k x seqs conv Hn HX Hs fuel; induction fuel as [|fuel IH]; intros t P E p e HP HE H; [discriminate|].
  cbn [fit_loop] in H. destruct (fit_accumulate (fit_func ft n k P E x) seqs (zeros n n) (zeros n k)) as [pc ec] eqn:EA.
  assert (A : nonneg_mat n n pc /\ nonneg_mat n k ec).
  { pose proof (fit_accumulate_nonneg n k (fit_func ft n k P E x) seqs (zeros n n) (zeros n k) Hn) as Z. rewrite EA in Z. apply Z.
    - intros s pc0 ec0 Hin Hf. eapply fit_func_nonneg; [exact Hn|split; [exact HP|split; [exact HE|exact HX]]|apply Hs; exact Hin|exact Hf].
    - apply zeros_nonneg.
    - apply zeros_nonneg. }
  destruct A as [A1 A2]. destruct (forallb (fun i => negb (Qceqb (rowsum pc i) 0)) (seq 0 n)) eqn:R1; [|discriminate].
  destruct (forallb (fun i => negb (Qceqb (rowsum ec i) 0)) (seq 0 n)) eqn:R2; [|discriminate].
  pose proof (div_rows_nonneg_stochastic n n pc Hn A1 (rows_nonzero n n pc Hn (proj1 A1) R1)) as B1.
  pose proof (div_rows_nonneg_stochastic n k ec Hn A2 (rows_nonzero n k ec Hn (proj1 A2) R2)) as B2.
  destruct (conv t).
  - injection H as <- <-. exists P, E, pc, ec. repeat (split; [first [exact EA|exact R1|exact R2|reflexivity|split; [exact HP|split; assumption]]|]). reflexivity.
  - exact (IH _ _ _ _ _ B1 B2 H).
Qed.
Lemma null_rows_counts : forall n m C M, 0 < n -> wf n m M -> (forall u v, u < n -> v < m -> mget M u v = C u v) -> (forall u v, u < n -> v < m -> (0 <= C u v)%Qc) ->
  let N := madd (zeros n m) (div_rows_null M) in
  forallb (fun i => negb (Qceqb (rowsum N i) 0)) (seq 0 n) = true -> normalised_counts n m C (div_rows N).
Proof.
  intros n m C M Hn W HC Hp N R u Hu.
  assert (WN : wf n m N) by (apply wf_madd; [exact Hn|apply wf_mk]).
  pose proof (rows_nonzero n m N Hn WN R u Hu) as NZ.
  assert (SC : rowsum M u = sumn m (C u)) by (rewrite (rowsum_eq n m) by assumption; apply sumn_ext; intros; apply HC; assumption).
  assert (EN : forall v, v < m -> mget N u v = if Qceqb (sumn m (C u)) 0 then 0q else Qcabs (C u v / sumn m (C u))%Qc).
  { intros v Hv. unfold N. rewrite (mget_madd n m) by (try apply wf_mk; assumption). unfold zeros. rewrite mget_mk by assumption. unfold div_rows_null.
    rewrite (wf_nrows n m M W), (wf_ncols n m M W Hn). rewrite mget_mk by assumption. rewrite SC, HC by assumption. destruct (Qceqb _ _); ring. }
  destruct (Qceqb_spec (sumn m (C u)) 0) as [Z|Z].
  { exfalso. apply NZ. apply sumn_0. exact EN. }
  assert (Sp : (0 < sumn m (C u))%Qc) by (destruct (pos_or_0 (sumn m (C u))) as [A|A]; [apply sumn_nonneg; intros; apply Hp; assumption|exact A|congruence]).
  assert (EN' : forall v, v < m -> mget N u v = (C u v / sumn m (C u))%Qc).
  { intros v Hv. rewrite EN by exact Hv. apply Qcabs_eq_nonneg. apply Qc_div_nonneg; [apply Hp; assumption|exact Sp]. }
  split; [exact Sp|]. intros v Hv. rewrite (mget_div_rows n m) by assumption.
  rewrite (sumn_ext m (fun l => mget N u l) (fun v => C u v / sumn m (C u))%Qc) by exact EN'. rewrite sumn_div, Qc_div_self by exact Z. rewrite EN' by exact Hv. unfold Qcdiv at 1. 
  replace (/ 1)%Qc with 1q by (apply Qc_is_canon; reflexivity). ring.
Qed.
(** What predict returns. *)
Definition decoded (ft : fit_type) (P E : mat) (x : vec) (s w : list nat) : Prop :=
  match ft with
  | FitViterbi => exists v, viterbi P E x s = Ok (Some (v, w))
  | FitMap => exists lp, predict_map P E x s = Some (lp, w)
  | FitBW => False
  end.
Lemma fit_path_single : forall ft states symbols k P E s x conv h, ft <> FitBW -> hmm_ok (length states) k P E x ->
  fit ft states symbols P E [s] (Some x) conv = Ok h ->
  exists P0 E0 w, hmm_ok (length states) k P0 E0 x /\ decoded ft P0 E0 x s w /\
    normalised_counts (length states) (length states) (seen_moves w) (h_p h) /\ normalised_counts (length states) k (seen_symbols w s) (h_e h).
Proof.
  intros ft states symbols k P E s x conv h Hft HM H. destruct (fit_inv _ _ _ k _ _ _ _ _ _ (proj1 HM) (proj1 (proj2 HM)) H) as (Hn & Hs & F).
  destruct (fit_loop_last ft _ k x [s] conv Hn (proj2 (proj2 HM)) Hs 500 0 P E _ _ (proj1 HM) (proj1 (proj2 HM)) F) as (P0 & E0 & pc & ec & HM0 & EA & R1 & R2 & Ep & Ee).
  set (n := length states) in *. cbn [fit_accumulate] in EA.
  assert (D : exists w, decoded ft P0 E0 x s w /\ length w = length s /\ fit_func ft n k P0 E0 x s = Some (hmm_estimate n k w s false)).
  { pose proof (Hs s (or_introl eq_refl)) as Ho.
    assert (NN : fit_func ft n k P0 E0 x s <> None).
    { intros C. rewrite C in EA. injection EA as <- <-. pose proof (rows_nonzero n n (zeros n n) Hn (proj1 (zeros_nonneg n n)) R1 0 Hn) as Z. apply Z. apply sumn_0.
      intros v Hv. unfold zeros. apply mget_mk; assumption. }
    destruct ft; [congruence| |]; cbn [fit_func decoded] in *; unfold fit_prediction in *.
    - pose proof (predict_map_spec n k P0 E0 x s Hn HM0 Ho) as K. destruct (predict_map P0 E0 x s) as [[lp w]|]; [|congruence]. exists w. split; [exists lp; reflexivity|]. split; [apply K|reflexivity].
    - destruct s as [|o s']; [cbn in NN; congruence|]. pose proof (viterbi_spec n k P0 E0 x (o :: s') Hn HM0 Ho ltac:(discriminate)) as K.
      destruct (viterbi P0 E0 x (o :: s')) as [[[v w]|]|]; try congruence. exists w. split; [exists v; reflexivity|]. split; [|reflexivity].
      destruct K as (_ & K & _). apply in_words in K. apply K. }
  destruct D as (w & Dw & Lw & Fw). rewrite Fw in EA. unfold hmm_estimate in EA. cbn [fst snd] in EA. injection EA as <- <-.
  exists P0, E0, w. split; [exact HM0|]. split; [exact Dw|]. rewrite Ep, Ee. split.
  - apply null_rows_counts; [exact Hn|apply wf_mk| | |exact R1].
    + intros u v Hu Hv. unfold count_mat. rewrite mget_mk by assumption. apply moves_count.
    + intros; apply occ_nonneg.
  - apply null_rows_counts; [exact Hn|apply wf_mk| | |exact R2].
    + intros u v Hu Hv. unfold count_mat. rewrite mget_mk by assumption. apply symbols_count. exact Lw.
    + intros; apply occ_nonneg.
Qed.
(** with several sequences the rows of the per-sequence estimates are averaged, so
    the result is not the estimate from all decoded transitions *)
Definition pF : mat := qm [[1 # 2; 1 # 2]; [1 # 2; 1 # 2]]%Q.
Definition eF : mat := qm [[9 # 10; 1 # 10]; [1 # 10; 9 # 10]]%Q.
Definition sF1 : list nat := [0; 1; 0]. Definition sF2 : list nat := [0; 0; 0; 1; 1].
Lemma fit_path_pooled : exists h, hmm_ok 2 2 pF eF xU /\ fit FitViterbi ["A"; "B"]%string ["u"; "v"]%string pF eF [sF1; sF2] (Some xU) (fun _ => true) = Ok h /\
  decoded FitViterbi pF eF xU sF1 sF1 /\ decoded FitViterbi pF eF xU sF2 sF2 /\
  ~ normalised_counts 2 2 (fun u v => seen_moves sF1 u v + seen_moves sF2 u v)%Qc (h_p h).
Proof.
  eexists. split; [split; [apply stochasticb_ok; vm_compute; reflexivity|]; split; [apply row_stochasticb_ok; vm_compute; reflexivity|apply distributionb_ok; vm_compute; reflexivity]|].
  split; [vm_compute; reflexivity|]. split; [eexists; vm_compute; reflexivity|]. split; [eexists; vm_compute; reflexivity|].
  intros C. destruct (C 0 ltac:(lia)) as [_ D]. specialize (D 0 ltac:(lia)). apply Qceqb_eq in D. vm_compute in D. discriminate.
Qed.
