(** L_Hmm4: decoding restated on the method, and counterexamples for the hidden Markov layer. *)
From Verif Require Import L_Hmm3 ExH L_MeasuresR.
From Coq Require Import Reals Lra.
Close Scope R_scope.
Open Scope nat_scope.
Open Scope res_scope.

Lemma uniform_dist : forall n, 0 < n -> distribution n (uniform n).
Proof.
  intros n Hn. split; [apply tab_length|]. split.
  - intros i Hlt. unfold uniform. rewrite vget_tab by exact Hlt. apply Qc_div_nonneg0; [discriminate|]. apply Qcn_nonneg.
  - rewrite (sumn_ext _ _ (fun _ => 1 / Qcn n)%Qc) by (intros; unfold uniform; apply vget_tab; assumption).
    rewrite sumn_const_n. field. apply Qc_lt_neq. apply Qcn_pos. lia.
Qed.

Lemma hmm_ok_uniform : forall n k P E, 0 < n -> stochastic n P -> row_stochastic n k E -> hmm_ok n k P E (uniform n).
Proof. intros. split; [assumption|]. split; [assumption|apply uniform_dist; assumption]. Qed.

Lemma decode_default : forall n h symbols b, stochastic n (h_p h) -> decode h symbols None b = hmm_decode (h_p h) (h_e h) (tab n (fun _ => 1 / Qcn n)%Qc) symbols b.
Proof. intros n h symbols b HP. unfold decode. rewrite (st_rows n _ HP). reflexivity. Qed.

Lemma decode_values : forall n k h x obs b d, 0 < n -> hmm_ok n k (h_p h) (h_e h) x -> obs_ok k obs -> decode h obs (Some x) b = Some d ->
  let P := h_p h in let E := h_e h in
  (0 < likelihood n P E x obs)%Qc /\ d_log d = ln (Qc2R (likelihood n P E x obs)) /\ length (d_post d) = length obs /\
  forall t, t < length obs -> distribution n (nth t (d_post d) []) /\ forall i, i < n -> vget (nth t (d_post d) []) i = posterior n P E x obs t i.
Proof.
  intros n k h x obs b d Hn HM Ho H. cbv zeta. unfold decode in H. pose proof (decode_spec n k _ _ x obs b Hn HM Ho) as K. rewrite H in K.
  destruct K as [_ K]. split; [apply K|]. split; [apply K|]. split; [apply K|]. intros t Ht. split; [apply K; exact Ht|]. intros i Hi. apply K; assumption.
Qed.
Lemma decode_none : forall n k h x obs b, 0 < n -> hmm_ok n k (h_p h) (h_e h) x -> obs_ok k obs ->
  let L t := likelihood n (h_p h) (h_e h) x (firstn t obs) in
  (decode h obs (Some x) b = None <-> exists t, t < length obs /\ (L (S t) < Q2Qc (1 # (Pos.pow 10 300)) * L t)%Qc).
Proof.
  intros n k h x obs b Hn HM Ho. cbv zeta. unfold decode. pose proof (decode_spec n k _ _ x obs b Hn HM Ho) as K.
  destruct (hmm_decode (h_p h) (h_e h) x obs b) as [d|].
  - destruct K as [K _]. split; [discriminate|]. intros [t [Ht C]]. specialize (K t Ht). exfalso. exact (Qcle_not_lt _ _ K C).
  - split; [intros _; exact K|reflexivity].
Qed.
Lemma decode_arrays : forall n k h x obs b d, 0 < n -> hmm_ok n k (h_p h) (h_e h) x -> obs_ok k obs -> decode h obs (Some x) b = Some d ->
  let P := h_p h in let E := h_e h in let L t := likelihood n P E x (firstn t obs) in
  length (d_fwd d) = S (length obs) /\ length (d_back d) = S (length obs) /\ nth 0 (d_fwd d) [] = x /\
  (forall t i, t < length obs -> i < n ->
     vget (nth (S t) (d_fwd d) []) i =
       (let a := paths_total n P E x (firstn (S t) obs) (fun w => Nat.eqb (nth t w 0%nat) i) in if b then a / L (S t) else a)%Qc) /\
  (forall t i, t <= length obs -> i < n ->
     vget (nth t (d_back d) []) i =
       (let f := future n P E i (skipn t obs) in if b then f * L t / L (length obs) else f)%Qc) /\
  (if b then exists sf, d_scale d = Some sf /\ length sf = S (length obs) /\ nth 0 sf 0q = 1q /\ forall t, t < length obs -> (nth (S t) sf 0q * L t = L (S t))%Qc
   else d_scale d = None).
Proof.
  intros n k h x obs b d Hn HM Ho H. cbv zeta. unfold decode in H. pose proof (decode_spec n k _ _ x obs b Hn HM Ho) as K. rewrite H in K.
  destruct K as [_ K]. destruct (dk_fwd _ _ _ _ _ _ _ K) as [A [B C]]. destruct (dk_bwd _ _ _ _ _ _ _ K) as [D F].
  split; [exact A|]. split; [exact D|]. split; [exact B|]. split; [exact C|]. split; [|exact (dk_scale _ _ _ _ _ _ _ K)].
  intros t i Ht Hi. rewrite firstn_all. apply F; assumption.
Qed.

(** ** counterexamples *)
Lemma Qc_le_false : forall a b, Qcltb b a = true -> ~ (a <= b)%Qc.
Proof. intros a b H C. apply Qcltb_lt in H. exact (Qcle_not_lt _ _ C H). Qed.

Lemma pV_ok : hmm_ok 2 2 pV eV xU.
Proof. split; [apply stochasticb_ok; vm_compute; reflexivity|]. split; [apply row_stochasticb_ok; vm_compute; reflexivity|apply distributionb_ok; vm_compute; reflexivity]. Qed.
Lemma viterbi_not_best : exists n k P E x obs v w, hmm_ok n k P E x /\ obs_ok k obs /\ 2 <= length obs /\
  viterbi P E x obs = Ok (Some (v, w)) /\
  (exists w', In w' (words n (length obs)) /\ (joint n P E x w obs < joint n P E x w' obs)%Qc) /\
  (exists i' w', i' < n /\ In w' (words n (length obs)) /\ forall i, i < n -> (vget x i * joint_from P E i w obs < vget x i' * joint_from P E i' w' obs)%Qc).
Proof.
  exists 2, 2, pV, eV, xU, [0; 0], (match viterbi pV eV xU [0; 0] with Ok (Some (v, w)) => v | _ => 0q end), [0; 0].
  split; [exact pV_ok|]. split; [intros o Ho; cbn in Ho; lia|]. split; [cbn; lia|].
  split; [vm_compute; reflexivity|]. split.
  - exists [1; 1]. split; [vm_compute; tauto|]. apply Qcltb_lt. vm_compute. reflexivity.
  - exists 1, [1; 1]. split; [lia|]. split; [vm_compute; tauto|]. intros i Hi. apply Qcltb_lt. destruct i as [|[|i]]; [vm_compute; reflexivity|vm_compute; reflexivity|lia].
Qed.
Lemma pZ_ok : hmm_ok 2 2 pZ eZ (map q [1; 0]%Q).
Proof. split; [apply stochasticb_ok; vm_compute; reflexivity|]. split; [apply row_stochasticb_ok; vm_compute; reflexivity|apply distributionb_ok; vm_compute; reflexivity]. Qed.
Lemma viterbi_none_possible : exists n k P E x obs w, hmm_ok n k P E x /\ obs_ok k obs /\ 2 <= length obs /\
  viterbi P E x obs = Ok None /\ In w (words n (length obs)) /\ (0 < joint n P E x w obs)%Qc.
Proof.
  exists 2, 2, pZ, eZ, (map q [1; 0]%Q), [0; 1], [1; 0].
  split; [exact pZ_ok|]. split; [intros o Ho; cbn in Ho; lia|]. split; [cbn; lia|]. split; [vm_compute; reflexivity|].
  split; [vm_compute; tauto|]. apply Qcltb_lt. vm_compute. reflexivity.
Qed.
Lemma viterbi_wrong_probability : exists n k P E x obs v w, hmm_ok n k P E x /\ obs_ok k obs /\ 2 <= length obs /\
  viterbi P E x obs = Ok (Some (v, w)) /\ best_path n P E x obs w /\ (v < joint n P E x w obs)%Qc.
Proof.
  exists 2, 3, pH, eH, xU, obsH, (match viterbi pH eH xU obsH with Ok (Some (v, w)) => v | _ => 0q end), [0; 0; 1].
  split; [split; [apply stochasticb_ok; vm_compute; reflexivity|]; split; [apply row_stochasticb_ok; vm_compute; reflexivity|apply distributionb_ok; vm_compute; reflexivity]|].
  split; [intros o Ho; cbn in Ho; lia|]. split; [cbn; lia|]. split; [vm_compute; reflexivity|]. split.
  - split; [vm_compute; tauto|]. intros w' Hw. apply Qcleb_le.
    assert (F : forallb (fun w' => Qcleb (joint 2 pH eH xU w' obsH) (joint 2 pH eH xU [0; 0; 1] obsH)) (words 2 (length obsH)) = true) by (vm_compute; reflexivity).
    rewrite forallb_forall in F. apply F. exact Hw.
  - apply Qcltb_lt. vm_compute. reflexivity.
Qed.

Lemma simulate_impossible : exists n k h steps init c0 pr er, stochastic n (h_p h) /\ row_stochastic n k (h_e h) /\ unit_draws pr /\ unit_draws er /\
  (0 <= c0)%Qc /\ (c0 < 1q)%Qc /\ init < n /\
  let r := hmm_simulate h steps init None None c0 pr er in
  mget (h_p h) (nth 0 (fst r) 0%nat) (nth 1 (fst r) 0%nat) = 0q /\ mget (h_e h) (nth 1 (fst r) 0%nat) (nth 1 (snd r) 0%nat) = 0q /\ length (fst r) = 3.
Proof.
  exists 2, 2, hZ, 2, 0, 0q, (fun _ => 0q), (fun _ => 0q).
  split; [apply stochasticb_ok; vm_compute; reflexivity|]. split; [apply row_stochasticb_ok; vm_compute; reflexivity|].
  assert (U : unit_draws (fun _ => 0q)) by (intros t; split; [discriminate|reflexivity]).
  split; [exact U|]. split; [exact U|]. split; [discriminate|]. split; [reflexivity|]. split; [lia|].
  split; [|split]; [apply Qceqb_eq; vm_compute; reflexivity|apply Qceqb_eq; vm_compute; reflexivity|vm_compute; reflexivity].
Qed.

Lemma restrict_inconsistent : exists n k h so yo h', stochastic n (h_p h) /\ row_stochastic n k (h_e h) /\ length (h_states h) = n /\ length (h_symbols h) = k /\
  restrict h so yo = Ok h' /\ length (h_symbols h') <> ncols (h_e h') /\
  exists i, i < n /\ sumn (length (h_symbols h')) (mget (h_e h') i) <> 1q.
Proof.
  exists 2, 3, hH, None, (Some (SelList [0; 1])), (ok_or hH (restrict hH None (Some (SelList [0; 1])))).
  split; [apply stochasticb_ok; vm_compute; reflexivity|]. split; [apply row_stochasticb_ok; vm_compute; reflexivity|].
  split; [reflexivity|]. split; [reflexivity|]. split; [vm_compute; reflexivity|]. split; [vm_compute; discriminate|].
  exists 0. split; [lia|]. apply Qceqb_neq. vm_compute. reflexivity.
Qed.
Lemma restrict_single_state : exists n k h i h', 2 <= n /\ stochastic n (h_p h) /\ row_stochastic n k (h_e h) /\ restrict h (Some (SelOne i)) None = Ok h' /\
  length (h_states h') = 1.
Proof.
  exists 2, 3, hH, 1, (ok_or hH (restrict hH (Some (SelOne 1)) None)).
  split; [lia|]. split; [apply stochasticb_ok; vm_compute; reflexivity|]. split; [apply row_stochasticb_ok; vm_compute; reflexivity|].
  split; vm_compute; reflexivity.
Qed.

Lemma fit_inconsistent : exists ft states symbols k P E seqs conv h,
  stochastic (length states) P /\ row_stochastic (length states) k E /\
  fit ft states symbols P E seqs None conv = Ok h /\ h_symbols h = symbols /\ ncols (h_e h) <> length symbols.
Proof.
  exists FitBW, ["A"; "B"]%string, ["u"; "v"]%string, 3, pH, eH, [[0; 1; 1; 0]], (fun _ => true),
    (ok_or hH (fit FitBW ["A"; "B"]%string ["u"; "v"]%string pH eH [[0; 1; 1; 0]] None (fun _ => true))).
  split; [apply stochasticb_ok; vm_compute; reflexivity|]. split; [apply row_stochasticb_ok; vm_compute; reflexivity|].
  split; [vm_compute; reflexivity|]. split; [vm_compute; reflexivity|vm_compute; discriminate].
Qed.
