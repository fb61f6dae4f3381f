(** L_Trellis2: plot_trellis as a whole, and examples. *)
From Verif Require Import L_Hmm2 L_Hmm3 L_Hmm4 M_Trellis S_Trellis L_Trellis ExH Dec.
From Coq Require Import Reals.
Close Scope R_scope.
Open Scope nat_scope.
Open Scope res_scope.

(** the state in which the simulation starts and the symbols that are plotted *)
Definition trellis_start (n : nat) (init : option nat) (r : nat) : nat := match init with Some i => i | None => Nat.modulo r n end.
Definition trellis_symbols (h : hmm) (steps : nat) (init : option nat) (r : nat) (c0 : Qc) (pr er : nat -> Qc) : list nat :=
  snd (hmm_simulate h steps (trellis_start (nrows (h_p h)) init r) None None c0 pr er).

Lemma plot_inv ext h steps init r c0 pr er bw fw : plot_trellis ext h steps init r c0 pr er = Ok (bw, fw) ->
  let d := initial_distribution (nrows (h_p h)) init in let sy := trellis_symbols h steps init r c0 pr er in
  2 <= steps /\ (forall i, init = Some i -> i < nrows (h_p h)) /\
  exists dec v path, decode h sy (Some d) true = Some dec /\ viterbi (h_p h) (h_e h) d sy = Ok (Some (v, path)) /\
    bw = draws ext (nrows (h_p h)) (h_p h) d sy false (d_back dec) path /\ fw = draws ext (nrows (h_p h)) (h_p h) d sy true (d_fwd dec) path.
Proof.
  unfold plot_trellis. fold (trellis_start (nrows (h_p h)) init r). fold (trellis_symbols h steps init r c0 pr er). cbv zeta.
  destruct (Nat.leb_spec 2 steps); [|discriminate].
  destruct (match init with Some i => Nat.ltb i (nrows (h_p h)) | None => true end) eqn:Hi; [|discriminate].
  destruct (decode h _ _ _) as [dec|]; [|discriminate].
  destruct (viterbi _ _ _ _) as [[[v path]|]|e]; cbn; try discriminate. intros H'.
  split; [assumption|]. split; [intros i ->; now apply Nat.ltb_lt in Hi|].
  exists dec, v, path. split; [reflexivity|]. split; [reflexivity|]. destruct ext; injection H' as <- <-; auto.
Qed.
Lemma plot_make ext h steps init r c0 pr er v path : 2 <= steps -> (forall i, init = Some i -> i < nrows (h_p h)) ->
  let d := initial_distribution (nrows (h_p h)) init in let sy := trellis_symbols h steps init r c0 pr er in
  fwd_loop (nrows (h_p h)) (h_p h) (h_e h) d sy <> None -> viterbi (h_p h) (h_e h) d sy = Ok (Some (v, path)) ->
  exists dec, decode h sy (Some d) true = Some dec /\ plot_trellis ext h steps init r c0 pr er =
    Ok (draws ext (nrows (h_p h)) (h_p h) d sy false (d_back dec) path, draws ext (nrows (h_p h)) (h_p h) d sy true (d_fwd dec) path).
Proof.
  intros Hs Hi d sy Hf Hv.
  assert (Hd : exists dec, decode h sy (Some d) true = Some dec).
  { unfold decode, hmm_decode. destruct (fwd_loop _ _ _ d sy); [eexists; reflexivity|contradiction]. }
  destruct Hd as [dec Hd]. exists dec. split; [exact Hd|].
  unfold plot_trellis. fold (trellis_start (nrows (h_p h)) init r). fold (trellis_symbols h steps init r c0 pr er). fold d. fold sy. cbv zeta.
  destruct (Nat.leb_spec 2 steps); [|lia].
  replace (match init with Some i => Nat.ltb i (nrows (h_p h)) | None => true end) with true.
  2:{ destruct init as [i|]; [|reflexivity]. symmetry. apply Nat.ltb_lt. now apply Hi. }
  rewrite Hd, Hv. cbn. destruct ext; reflexivity.
Qed.

Lemma hsim_length n k p e pr er t steps cur : length (hsim_loop n k p e None None pr er t steps cur) = steps.
Proof. revert t cur; induction steps as [|s IH]; intros t cur; cbn; [reflexivity|]. now rewrite IH. Qed.
Lemma symbols_length h steps init r c0 pr er : length (trellis_symbols h steps init r c0 pr er) = S steps.
Proof. unfold trellis_symbols, hmm_simulate. cbn. now rewrite map_length, hsim_length. Qed.
Lemma start_lt n init r : 0 < n -> (forall i, init = Some i -> i < n) -> trellis_start n init r < n.
Proof. intros Hn Hi. destruct init as [i|]; cbn; [auto|]. apply Nat.mod_upper_bound. lia. Qed.
Lemma symbols_ok n k h steps init r c0 pr er : runnable n k (h_p h) (h_e h) c0 pr er -> (forall i, init = Some i -> i < n) ->
  obs_ok k (trellis_symbols h steps init r c0 pr er).
Proof.
  intros [Hn [HP [HE [Hpr [Her [H0 H1]]]]]] Hi. pose proof (st_rows n _ HP) as Hr.
  pose proof (start_lt n init r Hn Hi) as Hst.
  pose proof (hmm_simulate_steps n k (h_p h) (h_e h) (h_states h) (h_symbols h) steps (trellis_start n init r) None None c0 pr er Hn HP HE Hpr Her H0 H1 Hst) as H.
  assert (Eh : mkhmm (h_p h) (h_e h) (h_states h) (h_symbols h) = h) by now destruct h.
  rewrite Eh in H. cbv zeta in H. destruct H as [HL [_ [_ [HF [_ [HS _]]]]]].
  unfold trellis_symbols. rewrite Hr. intros o Ho. apply (In_nth _ _ 0) in Ho as [q [Hq <-]].
  destruct q as [|q]; [exact HF|]. apply (HS q). now rewrite HL.
Qed.
Lemma init_dist n init : 0 < n -> (forall i, init = Some i -> i < n) -> distribution n (initial_distribution n init).
Proof.
  intros Hn Hi. destruct init as [i|]; cbn [initial_distribution]; [|now apply uniform_dist].
  specialize (Hi i eq_refl). split; [apply tab_length|]. split.
  - intros j Hj. rewrite vget_tab by exact Hj. destruct (Nat.eqb j i); discriminate.
  - rewrite (sumn_ext _ _ (fun j => if Nat.eqb j i then 1q else 0q)) by (intros; now rewrite vget_tab).
    rewrite (sumn_ext _ _ (delta i)) by (intros j _; unfold delta; now rewrite Nat.eqb_sym). now apply sumn_delta.
Qed.

(** ** When the plot succeeds *)
Lemma fwd_ok n k P E : 0 < n -> stochastic n P -> row_stochastic n k E -> (forall i j, i < n -> j < k -> (tiny300 <= mget E i j)%Qc) ->
  forall sy f, obs_ok k sy -> distribution n f -> fwd_loop n P E f sy <> None.
Proof.
  intros Hn HP HE Hm. assert (HT : (0 < tiny300)%Qc) by (vm_compute; reflexivity).
  induction sy as [|y sy IH]; intros f Ho Hf; cbn [fwd_loop]; [discriminate|].
  assert (Hy : y < k) by (apply Ho; now left).
  set (c := fwd_col n P E y f).
  assert (Hin : forall s, s < n -> (0 <= sumn n (fun i => vget f i * mget P i s))%Qc).
  { intros s Hs. apply sumn_nonneg. intros i Hi. apply Qc_mul_nonneg; [now apply Hf|]. destruct HP as [_ [HP _]]. now apply HP. }
  assert (Hc : forall s, s < n -> (tiny300 * sumn n (fun i => vget f i * mget P i s) <= vget c s)%Qc).
  { intros s Hs. unfold c, fwd_col. rewrite vget_tab by exact Hs. apply Qcmult_le_compat_r; auto. }
  assert (Htot : (sumn n (fun s => tiny300 * sumn n (fun i => vget f i * mget P i s)) = tiny300)%Qc).
  { rewrite sumn_mul_l. rewrite sumn_swap. rewrite (sumn_ext _ _ (vget f)).
    - destruct Hf as [_ [_ Hf]]. rewrite Hf. ring.
    - intros i Hi. rewrite sumn_mul_l. destruct HP as [_ [_ HP]]. rewrite HP by exact Hi. ring. }
  assert (Hs : (tiny300 <= sumn n (vget c))%Qc) by (rewrite <- Htot at 1; apply sumn_le; exact Hc).
  assert (Hp : (0 < sumn n (vget c))%Qc) by (eapply Qclt_le_trans; [exact HT|exact Hs]).
  destruct (Qcltb (sumn n (vget c)) tiny300) eqn:Hlt.
  { apply Qcltb_lt in Hlt. exfalso. exact (Qcle_not_lt _ _ Hs Hlt). }
  match goal with |- context [fwd_loop n P E ?v sy] => assert (Hd : distribution n v) end.
  { split; [rewrite map_length; apply tab_length|].
    assert (Hg : forall j, j < n -> vget (map (fun x => (x / sumn n (vget c))%Qc) c) j = (vget c j / sumn n (vget c))%Qc).
    { intros j Hj. unfold vget. rewrite (nth_indep _ _ ((fun x => (x / sumn n (fun i => nth i c 0q))%Qc) 0q)) by (rewrite map_length; unfold c, fwd_col; now rewrite tab_length).
      apply (map_nth (fun x => (x / sumn n (fun i => nth i c 0q))%Qc)). }
    split.
    - intros j Hj. rewrite Hg by exact Hj. apply Qc_div_nonneg0; [|apply Qclt_le_weak, Hp].
      eapply Qcle_trans; [|apply Hc; exact Hj]. apply Qc_mul_nonneg; [apply Qclt_le_weak, HT|auto].
    - rewrite (sumn_ext _ _ (fun j => / sumn n (vget c) * vget c j)%Qc) by (intros j Hj; rewrite Hg by exact Hj; unfold Qcdiv; ring).
      rewrite sumn_mul_l. apply Qcmult_inv_l. now apply Qc_lt_neq. }
  specialize (IH _ (fun o Ho' => Ho o (or_intror Ho')) Hd).
  destruct (fwd_loop n P E _ sy); [discriminate|contradiction].
Qed.
Lemma joint_from_pos n k P E : (forall i j, i < n -> j < n -> (0 < mget P i j)%Qc) -> (forall i j, i < n -> j < k -> (0 < mget E i j)%Qc) ->
  forall w obs i, i < n -> (forall s, In s w -> s < n) -> obs_ok k obs -> (0 < joint_from P E i w obs)%Qc.
Proof.
  intros HP HE. induction w as [|s w IH]; intros [|o obs] i Hi Hw Ho; cbn [joint_from]; try reflexivity.
  assert (s < n) by (apply Hw; now left). assert (o < k) by (apply Ho; now left).
  apply Qc_mul_pos; [apply Qc_mul_pos; auto|]. apply IH; [assumption| |]; intros x Hx; [apply Hw|apply Ho]; now right.
Qed.
Lemma trellis_succeeds ext n k h steps init r c0 pr er : runnable n k (h_p h) (h_e h) c0 pr er -> 2 <= steps -> (forall i, init = Some i -> i < n) ->
  (forall i j, i < n -> j < n -> (0 < mget (h_p h) i j)%Qc) -> (forall i j, i < n -> j < k -> (tiny300 <= mget (h_e h) i j)%Qc) ->
  exists bw fw, plot_trellis ext h steps init r c0 pr er = Ok (bw, fw).
Proof.
  intros HR Hs Hi HP HE. pose proof (symbols_ok n k h steps init r c0 pr er HR Hi) as Ho.
  pose proof (symbols_length h steps init r c0 pr er) as Hl.
  destruct HR as [Hn [SP [SE _]]]. pose proof (st_rows n _ SP) as Hr.
  pose proof (init_dist n init Hn Hi) as Hd.
  set (sy := trellis_symbols h steps init r c0 pr er) in *.
  assert (HE0 : forall i j, i < n -> j < k -> (0 < mget (h_e h) i j)%Qc).
  { intros i j Hi' Hj. eapply Qclt_le_trans; [|apply HE; assumption]. vm_compute; reflexivity. }
  assert (Hne : sy <> []) by (intros C; rewrite C in Hl; discriminate).
  pose proof (viterbi_spec n k (h_p h) (h_e h) (initial_distribution n init) sy Hn (conj SP (conj SE Hd)) Ho Hne) as HV.
  assert (Hv : exists v path, viterbi (h_p h) (h_e h) (initial_distribution n init) sy = Ok (Some (v, path))).
  { destruct (viterbi (h_p h) (h_e h) (initial_distribution n init) sy) as [[[v path]|]|e]; [eauto| |contradiction].
    exfalso. assert (Hx : (0 < sumn n (vget (initial_distribution n init)))%Qc) by (destruct Hd as [_ [_ Hd]]; rewrite Hd; reflexivity).
    apply sumn_pos_inv in Hx as [i [Hi' Hx]].
    assert (Hw : In (repeat 0 (length sy)) (words n (length sy))).
    { apply in_words. split; [apply repeat_length|]. intros s Hs'. apply repeat_spec in Hs'. lia. }
    specialize (HV i _ Hi' Hw). unfold vit_score in HV.
    assert (K : (0 < vget (initial_distribution n init) i * mget (h_e h) i (hd 0%nat sy) * joint_from (h_p h) (h_e h) i (repeat 0%nat (length sy)) sy)%Qc).
    { apply Qc_mul_pos; [apply Qc_mul_pos; [exact Hx|]|].
      - apply HE0; [exact Hi'|]. apply Ho. destruct sy; [contradiction|now left].
      - apply (joint_from_pos n k); auto. intros s Hs'. apply repeat_spec in Hs'. lia. }
    rewrite HV in K. discriminate. }
  destruct Hv as [v [path Hv]]. rewrite <- Hr in Hv.
  destruct (plot_make ext h steps init r c0 pr er v path Hs) as [dec [_ H]]; [intros i E; rewrite Hr; auto| |exact Hv|].
  - fold sy. rewrite Hr. apply (fwd_ok n k); auto.
  - eexists; eexists; exact H.
Qed.

(** Two states that take turns, each with its own symbol *)
Definition hTurns : hmm := mkhmm (qm [[0; 1]; [1; 0]]%Q) (qm [[1; 0]; [0; 1]]%Q) ["A"; "B"]%string ["u"; "v"]%string.
Lemma turns_fail ext steps init r c0 pr er : runnable 2 2 (h_p hTurns) (h_e hTurns) c0 pr er -> plot_trellis ext hTurns steps init r c0 pr er = Err ValueErr.
Proof.
  intros HR. unfold plot_trellis. fold (trellis_start (nrows (h_p hTurns)) init r). fold (trellis_symbols hTurns steps init r c0 pr er). cbv zeta.
  destruct (Nat.leb 2 steps); [|reflexivity].
  destruct (match init with Some i => Nat.ltb i (nrows (h_p hTurns)) | None => true end) eqn:Hi; [|reflexivity].
  assert (Hi' : forall i, init = Some i -> i < 2) by (intros i ->; now apply Nat.ltb_lt in Hi).
  pose proof (symbols_ok 2 2 hTurns steps init r c0 pr er HR Hi') as Ho.
  pose proof (symbols_length hTurns steps init r c0 pr er) as Hl.
  destruct (decode _ _ _ _); [|reflexivity].
  destruct (trellis_symbols hTurns steps init r c0 pr er) as [|y sy]; [discriminate|].
  assert (Hv : forall x, viterbi (h_p hTurns) (h_e hTurns) x (y :: sy) = Ok None).
  { intros x. unfold viterbi. destruct (all_zero _) eqn:Z; [reflexivity|].
    cbn [vit_loop]. replace (all_zero (vit_row _ _ _ _ _)) with true; [reflexivity|]. symmetry. clear Z.
    assert (Hy : y = 0 \/ y = 1) by (assert (y < 2) by (apply Ho; now left); lia).
    unfold all_zero. apply forallb_forall. intros z Hz. apply Qceqb_eq.
    apply (In_nth _ _ 0q) in Hz as [j [Hj <-]]. unfold vit_row in *. rewrite tab_length in Hj. change (nrows (h_p hTurns)) with 2 in *.
    set (pr' := vit_probs 2 _ _) in *.
    assert (K : forall j', j' < 2 -> let q' := pr' j' in (vget q' (argmax q') * mget (h_e hTurns) j' y)%Qc = 0q).
    { intros j' Hj'. cbv zeta. unfold pr'. set (a := argmax _).
      assert (Ha : a < 2 \/ 2 <= a) by lia. destruct Ha as [Ha|Ha].
      - unfold vit_probs. rewrite vget_tab by exact Ha. rewrite vget_tab by exact Ha.
        assert (a = 0 \/ a = 1) as [->| ->] by lia; assert (j' = 0 \/ j' = 1) as [->| ->] by lia; destruct Hy as [->| ->]; cbn; ring.
      - unfold vit_probs. unfold vget at 1. rewrite nth_overflow by (rewrite tab_length; exact Ha). ring. }
    match goal with |- nth j ?l 0q = _ => change (vget l j = 0q) end. rewrite vget_tab by exact Hj. apply K. exact Hj. }
  rewrite Hv. reflexivity.
Qed.

(** ** Numbers and headers *)
Lemma la_fields ext n p d sy fw M path : let L := draws ext n p d sy fw M path in
  la_cols L = length sy /\ la_number L = at_col M /\ la_header L = header sy /\ la_node_marked L = marked_node path.
Proof. destruct ext; repeat split. Qed.
Lemma trellis_numbers ext n k h steps init r c0 pr er bw fw : runnable n k (h_p h) (h_e h) c0 pr er ->
  plot_trellis ext h steps init r c0 pr er = Ok (bw, fw) ->
  let P := h_p h in let E := h_e h in let x := initial_distribution n init in let sy := trellis_symbols h steps init r c0 pr er in
  let L t := likelihood n P E x (firstn t sy) in
  length sy = S steps /\ la_cols fw = S steps /\ la_cols bw = S steps /\
  (forall t, 1 <= t <= steps -> la_header fw t = Some (nth t sy 0) /\ la_header bw t = Some (nth t sy 0)) /\
  (forall i, i < n -> la_number fw (i, 0) = vget x i) /\
  (forall t i, t < steps -> i < n -> la_number fw (i, S t) = filtered n P E x sy t i) /\
  (forall t i, t <= steps -> i < n -> la_number bw (i, t) = (future n P E i (skipn t sy) * L t / L (S steps))%Qc).
Proof.
  intros HR H P E x sy L. pose proof (plot_inv _ _ _ _ _ _ _ _ _ _ H) as [Hs [Hi [dec [v [path [Hd [_ [-> ->]]]]]]]].
  pose proof (symbols_length h steps init r c0 pr er) as Hl. assert (HR' := HR). destruct HR' as [Hn [SP [SE _]]].
  pose proof (st_rows n _ SP) as Hr. rewrite Hr in *.
  pose proof (symbols_ok n k h steps init r c0 pr er HR Hi) as Ho. fold sy in Hl, Ho, Hd.
  pose proof (init_dist n init Hn Hi) as Hx.
  pose proof (decode_arrays n k h x sy true dec Hn (conj SP (conj SE Hx)) Ho Hd) as K. cbv zeta in K. destruct K as [_ [_ [K0 [KF [KB _]]]]].
  repeat match goal with |- context [draws ext ?a ?b ?c ?d ?e ?f ?g] => destruct (la_fields ext a b c d e f g) as [-> [-> [-> _]]] || fail end.
  split; [exact Hl|]. split; [exact Hl|]. split; [exact Hl|]. split; [|split; [|split]].
  - intros t Ht. destruct t; [lia|]. split; reflexivity.
  - intros i Hi'. unfold at_col. cbn [fst snd]. now rewrite K0.
  - intros t i Ht Hi'. unfold at_col. cbn [fst snd]. rewrite KF by (rewrite ?Hl; lia). reflexivity.
  - intros t i Ht Hi'. unfold at_col. cbn [fst snd]. rewrite KB by (rewrite ?Hl; lia). unfold L. now rewrite <- Hl.
Qed.

(** ** Edges and marks *)
Lemma trellis_nodes ext h steps init r c0 pr er bw fw : plot_trellis ext h steps init r c0 pr er = Ok (bw, fw) ->
  exists v path, viterbi (h_p h) (h_e h) (initial_distribution (nrows (h_p h)) init) (trellis_symbols h steps init r c0 pr er) = Ok (Some (v, path)) /\
  forall i t, (la_node_marked fw (i, t) = true <-> nth t path 0 = i) /\ (la_node_marked bw (i, t) = true <-> nth t path 0 = i).
Proof.
  intros H. pose proof (plot_inv _ _ _ _ _ _ _ _ _ _ H) as [Hs [Hi [dec [v [path [Hd [Hv [-> ->]]]]]]]].
  exists v, path. split; [exact Hv|]. intros i t.
  repeat match goal with |- context [draws ext ?a ?b ?c ?d ?e ?f ?g] => destruct (la_fields ext a b c d e f g) as [_ [_ [_ ->]]] || fail end.
  unfold marked_node. cbn [fst snd]. rewrite Nat.eqb_eq. split; reflexivity.
Qed.
Lemma trellis_marked ext n h steps init r c0 pr er bw fw : stochastic n (h_p h) -> plot_trellis ext h steps init r c0 pr er = Ok (bw, fw) ->
  exists v path, viterbi (h_p h) (h_e h) (initial_distribution n init) (trellis_symbols h steps init r c0 pr er) = Ok (Some (v, path)) /\
  forall (dir : bool) i t j b, (ext = true \/ dir = true \/ two_way n (h_p h)) ->
  In (link dir i t j, b) (la_edges (if dir then fw else bw)) -> (b = true <-> path_step path i t j).
Proof.
  intros SP H. pose proof (st_rows n _ SP) as Hr.
  pose proof (plot_inv _ _ _ _ _ _ _ _ _ _ H) as [Hs [Hi [dec [v [path [Hd [Hv [-> ->]]]]]]]]. rewrite Hr in *.
  exists v, path. split; [exact Hv|]. intros dir i t j b HC. destruct dir; apply draws_marked; tauto.
Qed.
Lemma trellis_edges ext n h steps init r c0 pr er bw fw : stochastic n (h_p h) -> plot_trellis ext h steps init r c0 pr er = Ok (bw, fw) ->
  forall (dir : bool) i t j, (exists b, In (link dir i t j, b) (la_edges (if dir then fw else bw))) <->
  i < n /\ t < steps /\ j < n /\ (0 < mget (h_p h) i j)%Qc /\ (t = 0 -> (0 < vget (initial_distribution n init) 0)%Qc).
Proof.
  intros SP H. pose proof (st_rows n _ SP) as Hr.
  pose proof (plot_inv _ _ _ _ _ _ _ _ _ _ H) as [Hs [Hi [dec [v [path [Hd [Hv [-> ->]]]]]]]]. rewrite Hr in *.
  pose proof (symbols_length h steps init r c0 pr er) as Hl.
  intros dir i t j. destruct dir; rewrite draws_edges, moves_in, Hl; rewrite <- Nat.succ_lt_mono; reflexivity.
Qed.
Lemma trellis_edges_later ext n h steps init r c0 pr er bw fw : stochastic n (h_p h) -> plot_trellis ext h steps init r c0 pr er = Ok (bw, fw) ->
  forall (dir : bool) i t j, 1 <= t \/ init = None -> ((exists b, In (link dir i t j, b) (la_edges (if dir then fw else bw))) <->
  i < n /\ t < steps /\ j < n /\ (0 < mget (h_p h) i j)%Qc).
Proof.
  intros SP H dir i t j HC. rewrite (trellis_edges _ _ _ _ _ _ _ _ _ _ _ SP H). split; [tauto|]. intros [Hi [Ht [Hj Hp]]]. repeat split; auto.
  intros ->. destruct HC as [HC| ->]; [lia|]. cbn [initial_distribution]. unfold uniform. rewrite vget_tab by lia. apply Qc_div_pos; [reflexivity|apply Qcn_pos; lia].
Qed.
Lemma trellis_first_missing ext n h steps s r c0 pr er bw fw : stochastic n (h_p h) -> plot_trellis ext h steps (Some (S s)) r c0 pr er = Ok (bw, fw) ->
  forall (dir : bool) i j b, ~ In (link dir i 0 j, b) (la_edges (if dir then fw else bw)).
Proof.
  intros SP H dir i j b HI. assert (HE : exists b, In (link dir i 0 j, b) (la_edges (if dir then fw else bw))) by eauto.
  apply (trellis_edges _ _ _ _ _ _ _ _ _ _ _ SP H) in HE as [Hi [_ [_ [_ HE]]]]. specialize (HE eq_refl).
  cbn [initial_distribution] in HE. rewrite vget_tab in HE by lia. discriminate.
Qed.
Lemma trellis_first_extra ext n h steps r c0 pr er bw fw : stochastic n (h_p h) -> plot_trellis ext h steps (Some 0) r c0 pr er = Ok (bw, fw) ->
  forall (dir : bool) i j, i < n -> j < n -> (0 < mget (h_p h) i j)%Qc -> exists b, In (link dir i 0 j, b) (la_edges (if dir then fw else bw)).
Proof.
  intros SP H dir i j Hi Hj Hp. apply (trellis_edges _ _ _ _ _ _ _ _ _ _ _ SP H).
  pose proof (plot_inv _ _ _ _ _ _ _ _ _ _ H) as [Hs _]. repeat split; auto; [lia|].
  intros _. cbn [initial_distribution]. rewrite vget_tab by lia. reflexivity.
Qed.

(** ** Examples *)
Definition uQ (x : Q) : nat -> Qc := fun _ => q x.
Lemma runnable_ex n k P E a b c : Nat.ltb 0 n && stochasticb n P && row_stochasticb n k E && Qcleb 0 (q a) && Qcltb (q a) 1 && Qcleb 0 (q b) && Qcltb (q b) 1 && Qcleb 0 (q c) && Qcltb (q c) 1 = true ->
  runnable n k P E (q c) (uQ a) (uQ b).
Proof.
  rewrite !andb_true_iff. intros [[[[[[[[H1 H2] H3] H4] H5] H6] H7] H8] H9]. split; [now apply Nat.ltb_lt|]. split; [now apply stochasticb_ok|]. split; [now apply row_stochasticb_ok|].
  split; [intros t; split; [now apply Qcleb_le|now apply Qcltb_lt]|]. split; [intros t; split; [now apply Qcleb_le|now apply Qcltb_lt]|]. split; [now apply Qcleb_le|now apply Qcltb_lt].
Qed.
Lemma two_by f n k : (forall i j, i < n -> j < k -> f i j = true) <-> forallb (fun i => forallb (f i) (seq 0 k)) (seq 0 n) = true.
Proof.
  rewrite forallb_forall. split.
  - intros H i Hi. apply forallb_forall. intros j Hj. apply in_seq in Hi, Hj. apply H; lia.
  - intros H i j Hi Hj. specialize (H i). rewrite forallb_forall in H. apply H; apply in_seq; lia.
Qed.
Lemma succeeds_ex n k h steps init a b c : (Nat.ltb 0 n && stochasticb n (h_p h) && row_stochasticb n k (h_e h) && Qcleb 0 (q a) && Qcltb (q a) 1 && Qcleb 0 (q b) && Qcltb (q b) 1 && Qcleb 0 (q c) && Qcltb (q c) 1) &&
   (Nat.leb 2 steps && match init with Some i => Nat.ltb i n | None => true end && forallb (fun i => forallb (fun j => Qcltb 0 (mget (h_p h) i j)) (seq 0 n)) (seq 0 n) && forallb (fun i => forallb (fun j => Qcleb tiny300 (mget (h_e h) i j)) (seq 0 k)) (seq 0 n)) = true ->
  runnable n k (h_p h) (h_e h) (q c) (uQ a) (uQ b) /\ forall ext r, exists bw fw, plot_trellis ext h steps init r (q c) (uQ a) (uQ b) = Ok (bw, fw).
Proof.
  rewrite andb_true_iff. intros [H H']. apply runnable_ex in H. split; [exact H|]. intros ext r. rewrite !andb_true_iff in H'. destruct H' as [[[H1 H2] H3] H4].
  apply (trellis_succeeds ext n k); [exact H|now apply Nat.leb_le| | |].
  - intros i ->. now apply Nat.ltb_lt.
  - rewrite <- two_by in H3. intros. apply Qcltb_lt. auto.
  - rewrite <- two_by in H4. intros. apply Qcleb_le. auto.
Qed.
Lemma shift_example : runnable 2 3 pH eH (q (1 # 4)) (uQ (1 # 2)) (uQ (1 # 2)) /\
  exists bw fw y, plot_trellis false hH 2 None 0 (q (1 # 4)) (uQ (1 # 2)) (uQ (1 # 2)) = Ok (bw, fw) /\
  la_header fw 1 = Some y /\ nth 1 (trellis_symbols hH 2 None 0 (q (1 # 4)) (uQ (1 # 2)) (uQ (1 # 2))) 0 = y /\
  la_number fw (0, 1) <> filtered 2 pH eH (initial_distribution 2 None) (trellis_symbols hH 2 None 0 (q (1 # 4)) (uQ (1 # 2)) (uQ (1 # 2))) 1 0.
Proof.
  destruct (succeeds_ex 2 3 hH 2 None (1 # 2) (1 # 2) (1 # 4)) as [HR HS]; [vm_compute; reflexivity|].
  split; [exact HR|]. destruct (HS false 0) as [bw [fw H]].
  exists bw, fw, (nth 1 (trellis_symbols hH 2 None 0 (q (1 # 4)) (uQ (1 # 2)) (uQ (1 # 2))) 0). split; [exact H|].
  pose proof (trellis_numbers _ 2 3 hH 2 None 0 _ _ _ bw fw HR H) as [_ [_ [_ [K1 [_ [K2 _]]]]]].
  split; [apply K1; lia|]. split; [reflexivity|]. rewrite K2 by lia. apply Qceqb_neq. vm_compute. reflexivity.
Qed.
(** the second state is never left *)
Definition hOne : hmm := mkhmm (qm [[1 # 2; 1 # 2]; [0; 1]]%Q) (qm [[3 # 4; 1 # 4]; [1 # 4; 3 # 4]]%Q) ["A"; "B"]%string ["u"; "v"]%string.
Lemma marks_example : runnable 2 2 (h_p hOne) (h_e hOne) 0q (uQ (1 # 4)) (uQ (1 # 4)) /\
  exists bw fw v, viterbi (h_p hOne) (h_e hOne) (initial_distribution 2 (Some 0)) (trellis_symbols hOne 2 (Some 0) 0 0q (uQ (1 # 4)) (uQ (1 # 4))) = Ok (Some (v, [0; 0; 0])) /\
  plot_trellis false hOne 2 (Some 0) 0 0q (uQ (1 # 4)) (uQ (1 # 4)) = Ok (bw, fw) /\
  In (link false 0 1 0, false) (la_edges bw) /\ In (link false 0 0 1, true) (la_edges bw).
Proof.
  split; [apply (runnable_ex 2 2 (h_p hOne) (h_e hOne) (1 # 4) (1 # 4) 0); vm_compute; reflexivity|].
  assert (Hv : exists v, viterbi (h_p hOne) (h_e hOne) (initial_distribution 2 (Some 0)) (trellis_symbols hOne 2 (Some 0) 0 0q (uQ (1 # 4)) (uQ (1 # 4))) = Ok (Some (v, [0; 0; 0]))).
  { eexists. vm_compute. reflexivity. }
  destruct Hv as [v Hv].
  destruct (plot_make false hOne 2 (Some 0) 0 0q (uQ (1 # 4)) (uQ (1 # 4)) v [0; 0; 0]) as [dec [_ H]]; [lia|intros i [= <-]; vm_compute; lia| |exact Hv|].
  { match goal with |- ?f <> None => assert (match f with None => false | Some _ => true end = true) by (vm_compute; reflexivity); destruct f; [discriminate|discriminate] end. }
  eexists; eexists; exists v. split; [exact Hv|]. split; [exact H|]. cbn [draws].
  change (la_edges (trellis_standard ?a ?b ?c ?d ?e ?f ?g)) with (la_edges (trellis_standard a b c d e [] g)).
  split; vm_compute; auto 10.
Qed.
Lemma first_example : exists bw fw, runnable 2 3 pH eH 0q (uQ (1 # 2)) (uQ (1 # 2)) /\ plot_trellis true hH 2 (Some 1) 0 0q (uQ (1 # 2)) (uQ (1 # 2)) = Ok (bw, fw).
Proof.
  destruct (succeeds_ex 2 3 hH 2 (Some 1) (1 # 2) (1 # 2) 0) as [HR HS]; [vm_compute; reflexivity|].
  destruct (HS true 0) as [bw [fw H]]. exists bw, fw. split; [exact HR|exact H].
Qed.
