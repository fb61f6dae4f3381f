(** L_Plots: proofs about plot_sequence, plot_redistributions and plot_comparison. *)
From Verif Require Import M_Plots S_Plots S_Measures S_Simulation L_Simulation L_Measures1 Dec L_Hmm3.
Open Scope nat_scope.
Open Scope res_scope.

Lemma lsum_seq (g : nat -> Qc) k : forall a, lsum (map g (seq a k)) = sumn k (fun i => g (a + i)).
Proof.
  induction k as [|k IH]; intros a; [reflexivity|]. rewrite seq_S, map_app, lsum_app, IH. cbn [map sumn]. unfold lsum at 1. cbn [fold_right]. ring.
Qed.
Lemma lsum_rows n m f : lsum (map lsum (mk n m f)) = sumn n (fun i => sumn m (f i)).
Proof.
  unfold mk. rewrite <- lsum_tab. f_equal. unfold tab. rewrite map_map. apply map_ext. intros i. exact (lsum_tab m (f i)).
Qed.
Definition mark (a b : nat) : Qc := if Nat.eqb a b then 1q else 0q.
Lemma mark_sum n a : a < n -> sumn n (fun s => mark a s) = 1q.
Proof. intros H. exact (sumn_delta n a H). Qed.
Lemma count_sum w s : sumn (length w) (fun t => mark (nth t w 0) s) = Qcn (count_occ Nat.eq_dec w s).
Proof.
  induction w as [|x w IH]; [reflexivity|]. cbn [length]. rewrite sumn_S_front. cbn [nth count_occ].
  rewrite IH. unfold mark. destruct (Nat.eqb_spec x s) as [->|N]; destruct (Nat.eq_dec _ _) as [E|E]; try congruence; [rewrite Qcn_S|]; ring.
Qed.
Section Walk.
Variables (n steps : nat) (w : list nat).
Hypothesis Hw : length w = steps + 1.
Hypothesis Hb : forall k, k < length w -> nth k w 0 < n.
Lemma matrix_entry s t : s < n -> t <= steps -> mget (sequence_matrix n (steps + 1) w) s t = mark (nth t w 0) s.
Proof.
  intros Hs Ht. unfold sequence_matrix. rewrite mget_mk by lia.
  rewrite (nth_error_nth' w 0) by lia. reflexivity.
Qed.
Lemma row_sum s : s < n -> lsum (nth s (sequence_matrix n (steps + 1) w) []) = Qcn (count_occ Nat.eq_dec w s).
Proof.
  intros Hs. unfold sequence_matrix, mk. rewrite tab_nth by exact Hs. rewrite lsum_tab, <- count_sum, Hw. apply sumn_ext. intros t Ht.
  rewrite (nth_error_nth' w 0) by lia. reflexivity.
Qed.
Lemma matrix_total : lsum (map lsum (sequence_matrix n (steps + 1) w)) = Qcn (steps + 1).
Proof.
  unfold sequence_matrix. rewrite lsum_rows, sumn_swap. rewrite (sumn_ext (steps + 1) _ (fun _ => 1q)).
  - rewrite sumn_const_n. ring.
  - intros t Ht. transitivity (sumn n (fun s => mark (nth t w 0) s)); [|apply mark_sum, Hb; lia]. apply sumn_ext. intros s Hs. rewrite (nth_error_nth' w 0) by lia. reflexivity.
Qed.
Lemma histogram_entry s : s < n -> vget (sequence_histogram n (steps + 1) w) s = (Qcn (count_occ Nat.eq_dec w s) / Qcn (steps + 1))%Qc.
Proof.
  intros Hs. unfold sequence_histogram. rewrite matrix_total. set (m := sequence_matrix n (steps + 1) w).
  assert (L : length m = n) by apply (proj1 (wf_mk n (steps + 1) _)).
  transitivity (nth s (map (fun row => lsum row / Qcn (steps + 1))%Qc m) (lsum [] / Qcn (steps + 1))%Qc).
  - apply nth_indep. rewrite map_length, L. exact Hs.
  - rewrite (map_nth (fun row => lsum row / Qcn (steps + 1))%Qc m [] s). unfold m. now rewrite row_sum.
Qed.
Lemma moves_sum a b : forall v, sumn (length v - 1) (fun i => mark (nth i v 0%nat) a * mark (nth (S i) v 0%nat) b)%Qc = Qcn (count_moves a b v).
Proof.
  induction v as [|x v IH]; [reflexivity|]. destruct v as [|y v]; [reflexivity|].
  change (count_moves a b (x :: y :: v)) with ((if Nat.eqb x a && Nat.eqb y b then 1 else 0) + count_moves a b (y :: v)).
  replace (length (x :: y :: v) - 1) with (S (length (y :: v) - 1)) by (cbn [length]; lia). rewrite sumn_S_front. rewrite Qcn_add, <- IH. f_equal.
  cbn [nth]. unfold mark. destruct (Nat.eqb x a), (Nat.eqb y b); cbn [andb]; rewrite ?Qcn_1, ?Qcn_0; ring.
Qed.
Definition move_count (a b : nat) : Qc := lsum (map (fun i => if Nat.eqb (nth (i - 1) w 0) a && Nat.eqb (nth i w 0) b then 1q else 0q) (seq 1 (steps + 1 - 1))).
Lemma move_count_sum a b : move_count a b = sumn steps (fun i => mark (nth i w 0%nat) a * mark (nth (S i) w 0%nat) b)%Qc.
Proof.
  unfold move_count. rewrite lsum_seq. replace (steps + 1 - 1) with steps by lia. apply sumn_ext. intros i Hi. replace (1 + i - 1) with i by lia. cbn [Nat.add].
  unfold mark. destruct (Nat.eqb (nth i w 0) a), (Nat.eqb (nth (S i) w 0) b); cbn [andb]; ring.
Qed.
Lemma move_count_is a b : move_count a b = Qcn (count_moves a b w).
Proof. rewrite move_count_sum, <- moves_sum, Hw. replace (steps + 1 - 1) with steps by lia. reflexivity. Qed.
Lemma heatmap_total : sumn n (fun a => sumn n (move_count a)) = Qcn steps.
Proof.
  rewrite (sumn_ext n _ (fun a => sumn steps (fun i => mark (nth i w 0) a))).
  - rewrite sumn_swap. rewrite (sumn_ext steps _ (fun _ => 1q)); [rewrite sumn_const_n; ring|]. intros i Hi. apply mark_sum, Hb. lia.
  - intros a Ha. rewrite (sumn_ext n _ (fun b => sumn steps (fun i => mark (nth i w 0%nat) a * mark (nth (S i) w 0%nat) b)%Qc)) by (intros; apply move_count_sum).
    rewrite sumn_swap. apply sumn_ext. intros i Hi. rewrite sumn_mul_l, mark_sum by (apply Hb; lia). ring.
Qed.
Lemma heatmap_entry a b : a < n -> b < n -> mget (sequence_heatmap n (steps + 1) w) a b = (Qcn (count_moves a b w) / Qcn steps)%Qc.
Proof.
  intros Ha Hb'. unfold sequence_heatmap. fold move_count. 
  change (mk n n (fun a b : nat => lsum (map (fun i => if Nat.eqb (nth (i - 1) w 0) a && Nat.eqb (nth i w 0) b then 1q else 0q) (seq 1 (steps + 1 - 1))))) with (mk n n move_count).
  rewrite lsum_rows, heatmap_total. set (g := fun x => (x / Qcn steps)%Qc). unfold mget.
  assert (L : length (mk n n move_count) = n) by apply (proj1 (wf_mk n n _)).
  transitivity (nth b (map g (nth a (mk n n move_count) [])) 0q).
  - f_equal. transitivity (nth a (map (map g) (mk n n move_count)) (map g [])); [reflexivity|]. apply (map_nth (map g)).
  - assert (L2 : length (nth a (mk n n move_count) []) = n) by (apply (proj2 (wf_mk n n move_count)), nth_In; rewrite L; exact Ha).
    transitivity (nth b (map g (nth a (mk n n move_count) [])) (g 0q)); [apply nth_indep; rewrite map_length, L2; exact Hb'|].
    rewrite (map_nth g). fold (mget (mk n n move_count) a b). rewrite mget_mk by assumption. now rewrite move_count_is.
Qed.
Lemma columns_visible t : t <= steps -> (fst (xlim_steps (steps + 1)) <= Qcn t - Q2Qc (1 # 2))%Qc /\ (Qcn t + Q2Qc (1 # 2) <= snd (xlim_steps (steps + 1)))%Qc.
Proof.
  intros Ht. unfold xlim_steps. cbn [fst snd]. pose proof (Qcn_nonneg t). assert (Qcn (S t) <= Qcn (steps + 1))%Qc by (apply Qcn_le; lia). rewrite Qcn_S in *. split; qclra.
Qed.
Lemma one_shows kind : pictures n steps w kind (one_sequence kind n (steps + 1) w).
Proof.
  destruct kind; cbn [one_sequence pictures].
  - split; [|intros a b Ha Hb'; apply heatmap_entry; assumption]. unfold sequence_heatmap. set (c := mk n n _). assert (W : wf n n c) by apply wf_mk. split; [rewrite map_length; apply W|].
    intros row Hr. apply in_map_iff in Hr. destruct Hr as [x [<- Hx]]. rewrite map_length. apply W, Hx.
  - split; [|intros s Hs'; apply histogram_entry; assumption]. unfold sequence_histogram. rewrite map_length. apply (proj1 (wf_mk n (steps + 1) _)).
  - split; [apply wf_mk|]. intros t Ht. split; [intros s Hs'; apply matrix_entry; assumption|]. apply columns_visible; assumption.
Qed.
End Walk.
Lemma plot_sequence_shows n P steps init kind r u : 0 < n -> stochastic n P -> unit_draws u -> 2 <= steps -> (forall i, init = Some i -> i < n) ->
  exists w pl, simulate P steps init None r u = Ok w /\ possible_walk n P w /\ length w = steps + 1 /\ plot_sequence P steps init kind r u = Ok pl /\ pictures n steps w kind pl.
Proof.
  intros Hn St Hu Hs Hi. destruct (simulate_spec n P steps init None r u Hn St Hu Hs Hi) as [w [E [Pw [_ [_ [Sa _]]]]]]; [discriminate|].
  cbn in Sa. destruct Pw as [Hb He]. exists w. exists (one_sequence kind n (steps + 1) w). split; [exact E|]. split; [split; assumption|]. split; [exact Sa|]. split; [|apply one_shows; assumption].
  unfold plot_sequence. destruct (Nat.leb_spec 2 steps); [|lia]. cbn [bind]. rewrite E. cbn [bind]. rewrite (wf_nrows n n P) by apply St. reflexivity.
Qed.
Lemma plot_sequence_hmm_shows n k P E states symbols steps init kind c0 pr er : 0 < n -> stochastic n P -> row_stochastic n k E ->
  unit_draws pr -> unit_draws er -> (0 <= c0)%Qc -> (c0 < 1q)%Qc -> init < n -> 2 <= steps ->
  let h := mkhmm P E states symbols in
  let r := hmm_simulate h steps init None None c0 pr er in
  exists a b, plot_sequence_hmm h steps init kind c0 pr er = Ok (a, b) /\ nth 0 (fst r) 0 = init /\ length (fst r) = steps + 1 /\ length (snd r) = steps + 1 /\
    pictures n steps (fst r) kind a /\ pictures k steps (snd r) kind b.
Proof.
  intros Hn HP HE Hpr Her Hc0 Hc1 Hi Hs h r.
  destruct (hmm_simulate_steps n k P E states symbols steps init None None c0 pr er Hn HP HE Hpr Her Hc0 Hc1 Hi) as [A [B [C [D1 [D2 [F [G H]]]]]]].
  cbv zeta in *. fold h in A, B, C, D1, D2, F, G, H. fold r in A, B, C, D1, D2, F, G, H.
  assert (L : length (fst r) = steps + 1) by (destruct H as [H|[_ [H|H]]]; [exact H|discriminate|discriminate]).
  exists (one_sequence kind n (steps + 1) (fst r)), (one_sequence kind k (steps + 1) (snd r)).
  split. { unfold plot_sequence_hmm. destruct (Nat.leb_spec 2 steps); [|lia]. fold r. unfold h at 1 2. cbn [h_p h_e]. rewrite (wf_nrows n n P) by apply HP. rewrite (wf_ncols n k E (proj1 HE) Hn). reflexivity. }
  split; [exact C|]. split; [exact L|]. split; [congruence|].
  split; apply one_shows; try congruence; intros q Hq; (destruct q as [|q]; [congruence || assumption|]).
  - destruct (F q Hq) as [F1 _]. exact F1.
  - destruct (F q ltac:(congruence)) as [_ [F2 _]]. exact F2.
Qed.

(** ** Redistributions *)
Lemma array_equal_refl v : array_equal v v = true.
Proof.
  unfold array_equal. rewrite Nat.eqb_refl. cbn [andb]. apply forallb_forall. intros [a b] I. cbn [fst snd].
  assert (E : a = b). { clear -I. induction v as [|x v IH]; [destruct I|]. cbn in I. destruct I as [E|I]; [congruence|auto]. } subst b. apply Qceqb_eq. reflexivity.
Qed.
Lemma even_ok n : 0 < n -> distribution n (even_status n).
Proof.
  intros H. assert (P : (0 < Qcn n)%Qc) by (apply Qcn_pos, H). unfold even_status. split; [apply tab_length|]. split.
  - intros i Hi. rewrite vget_tab by exact Hi. apply Qclt_le_weak, Qc_div_pos; [reflexivity|exact P].
  - rewrite (sumn_ext n _ (fun _ => 1 / Qcn n)%Qc) by (intros i Hi; apply vget_tab, Hi). rewrite sumn_const_n. field. intro E. rewrite E in P. discriminate P.
Qed.
Lemma redistributions_shown n P k init : 0 < n -> stochastic n P -> 1 <= k -> (forall x, init = Some x -> distribution n x) ->
  let x := match init with Some x => x | None => even_status n end in
  exists pj, plot_redistributions P k init = Ok pj /\ length (pj_points pj) = n /\
  forall i, i < n -> length (nth i (pj_points pj) []) = k + 1 /\
  forall t, t <= k -> let pt := nth t (nth i (pj_points pj) []) (0q, 0q) in
    pt = (Qcn t, step_dist n P x t i) /\ (fst (pj_xlim pj) < fst pt)%Qc /\ (fst pt < snd (pj_xlim pj))%Qc /\ (fst (pj_ylim pj) < snd pt)%Qc /\ (snd pt < snd (pj_ylim pj))%Qc.
Proof.
  intros Hn St Hk Hi x. assert (Dx : distribution n x) by (unfold x; destruct init as [v|]; [apply Hi; reflexivity|apply even_ok, Hn]).
  pose proof (wf_nrows n n P (proj1 St)) as Hr.
  destruct (redistribute_spec n P k x Hn St Dx Hk) as [l [E [L [_ H]]]].
  assert (E0 : nth 0 l [] = x).
  { apply (vec_ext _ _ n); [apply (proj1 (H 0 ltac:(lia)))|apply Dx|]. intros j Hj. rewrite (proj2 (H 0 ltac:(lia)) j Hj). apply step_dist_0, Hj. }
  eexists. split.
  { unfold plot_redistributions. destruct (Nat.leb_spec 1 k); [|lia]. cbn [bind]. rewrite Hr.
    replace (match init with Some y => y | None => even_status n end) with x by reflexivity. rewrite E. cbn [bind].
    assert (G : match init with Some y => array_equal (nth 0 l []) y | None => true end = true) by (destruct init as [y|]; [|reflexivity]; rewrite E0; apply array_equal_refl).
    rewrite G. reflexivity. }
  cbn [pj_points pj_xlim pj_ylim]. split; [apply tab_length|]. intros i Hi'. rewrite tab_nth by exact Hi'. rewrite tab_length. split; [exact L|].
  intros t Ht. cbv zeta. rewrite tab_nth by lia. rewrite (proj2 (H t Ht) i Hi'). split; [reflexivity|]. cbn [fst snd xlim_steps]. rewrite L.
  pose proof (Qcn_nonneg t). assert (Q : (Qcn (S t) <= Qcn (k + 1))%Qc) by (apply Qcn_le; lia). rewrite Qcn_S in Q.
  destruct (H t Ht) as [Dt Vt]. assert (N : (0 <= step_dist n P x t i)%Qc) by (apply step_dist_nonneg; assumption).
  assert (U : (step_dist n P x t i <= 1)%Qc). { rewrite <- (step_dist_sum n P x t St (proj2 (proj2 Dx))). apply (sumn_term_le n (fun j => step_dist n P x t j) i Hi'). intros j Hj. apply step_dist_nonneg; assumption. }
  repeat split; qclra.
Qed.

(** ** Comparison *)
Lemma grid_fits m : 2 <= m -> let (r, c) := grid m in 1 <= r /\ m <= r * c /\ r * c < m + r /\ r <= c.
Proof.
  intros H. unfold grid. pose proof (Nat.sqrt_spec m ltac:(lia)) as [A B]. set (r := Nat.sqrt m) in *.
  assert (R1 : 1 <= r) by nia. pose proof (Nat.div_mod (m + r - 1) r ltac:(lia)) as D. pose proof (Nat.mod_upper_bound (m + r - 1) r ltac:(lia)) as U.
  set (c := (m + r - 1) / r) in *. split; [exact R1|]. split; [nia|]. split; nia.
Qed.
Lemma combine_short {A B} : forall (l : list A) (m : list B), length m <= length l -> length (combine l m) = length m.
Proof. intros l m H. rewrite combine_length. lia. Qed.
Lemma comparison_all {A B} (models : list A) (names : list B) da db : 2 <= length models -> length names = length models ->
  exists cells, plot_comparison models names = Ok cells /\ length cells = length models /\
  forall k, k < length models -> nth k cells (0, da, db) = (k, nth k models da, nth k names db).
Proof.
  intros H2 Hl. pose proof (grid_fits (length models) H2) as G. unfold plot_comparison.
  destruct (Nat.leb_spec 2 (length models)); [|lia]. rewrite Hl, Nat.eqb_refl. cbn [andb]. destruct (grid (length models)) as [r c]. destruct G as [_ [G _]].
  eexists. split; [reflexivity|].
  assert (L1 : length (combine (seq 0 (r * c)) models) = length models) by (apply combine_short; rewrite seq_length; exact G).
  assert (L2 : length (combine (combine (seq 0 (r * c)) models) names) = length models) by (rewrite combine_short by (rewrite L1; lia); exact Hl).
  split; [rewrite map_length; exact L2|]. intros k Hk.
  transitivity (nth k (map (fun e => (fst (fst e), snd (fst e), snd e)) (combine (combine (seq 0 (r * c)) models) names)) ((fun e : nat * A * B => (fst (fst e), snd (fst e), snd e)) ((0, da), db))); [reflexivity|].
  rewrite (map_nth (fun e : nat * A * B => (fst (fst e), snd (fst e), snd e))). rewrite combine_nth by (rewrite L1; lia). cbn [fst snd].
  assert (E : nth k (combine (seq 0 (r * c)) models) (0, da) = (k, nth k models da)).
  { clear -Hk G. assert (Gn : forall s z (l : list A) k, length l <= z -> k < length l -> nth k (combine (seq s z) l) (0, da) = (s + k, nth k l da)).
    { intros s z l. revert s z. induction l as [|a l IH]; intros s z i Hz Hi; [cbn in Hi; lia|]. destruct z as [|z]; [cbn in Hz; lia|]. cbn [seq combine]. destruct i as [|i]; cbn [nth]; [f_equal; lia|].
      rewrite IH by (cbn in Hz, Hi; lia). f_equal. lia. }
    rewrite Gn by lia. reflexivity. }
  rewrite E. reflexivity.
Qed.
Lemma names_distinct hidden : NoDup (models_names hidden) /\ length (models_names hidden) = length hidden.
Proof.
  unfold models_names. split; [|now rewrite map_length, seq_length]. set (lab := if forallb _ hidden then _ else _). clearbody lab.
  assert (G : forall m a, NoDup (map (fun i => (lab, i + 1)) (seq a m))).
  { induction m as [|m IH]; intros a; cbn; constructor; [|apply IH]. intros I. apply in_map_iff in I. destruct I as [x [E I]]. apply in_seq in I. injection E as E. lia. }
  apply G.
Qed.
