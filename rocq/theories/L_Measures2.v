(** L_Measures2: first passage probabilities and rewards, mixing time, time series. *)
From Verif Require Export L_Measures1.
Open Scope res_scope.

Lemma words_len n k w : In w (words n k) -> length w = k.
Proof.
  revert w. induction k as [|k IH]; intros w H; cbn [words] in H.
  - destruct H as [<-|[]]. reflexivity.
  - apply in_flat_map in H. destruct H as (x & _ & H). apply in_map_iff in H. destruct H as (w' & <- & H). simpl. f_equal. apply IH; exact H.
Qed.
Lemma words_lt n k w x : In w (words n k) -> In x w -> x < n.
Proof.
  revert w. induction k as [|k IH]; intros w H Hx; cbn [words] in H.
  - destruct H as [<-|[]]. destruct Hx.
  - apply in_flat_map in H. destruct H as (y & Hy & H). apply in_map_iff in H. destruct H as (w' & <- & H). apply in_seq in Hy.
    destruct Hx as [<-|Hx]; [lia|]. apply (IH w'); assumption.
Qed.
Lemma prob_paths_false n P k i : prob_paths n P k i (fun _ => false) = 0q.
Proof. unfold prob_paths. apply lsum_map_0. reflexivity. Qed.
Lemma first_entry_cons S x w : w <> [] -> first_entry S (x :: w) = negb (memn x S) && first_entry S w.
Proof. destruct w; [congruence|reflexivity]. Qed.

(** One step of the first-entry probabilities *)
Lemma first_entry_1 n P S i : prob_paths n P 1 i (first_entry S) = sumn n (fun x => if memn x S then mget P i x else 0q).
Proof.
  rewrite prob_paths_S. apply sumn_ext. intros x _. unfold prob_paths. simpl. destruct (memn x S); ring.
Qed.
Lemma first_entry_SS n P S k i : prob_paths n P (Datatypes.S (Datatypes.S k)) i (first_entry S) =
  sumn n (fun x => if memn x S then 0q else (mget P i x * prob_paths n P (Datatypes.S k) x (first_entry S))%Qc).
Proof.
  rewrite prob_paths_S. apply sumn_ext. intros x _.
  rewrite (prob_paths_ext n P (Datatypes.S k) x _ (fun w => negb (memn x S) && first_entry S w)).
  2:{ intros w Hw. apply first_entry_cons. intros ->. apply words_len in Hw. discriminate. }
  destruct (memn x S); cbn [negb andb]; [rewrite prob_paths_false; ring|reflexivity].
Qed.

(** C46 *)
Lemma fpp_g_wf n P k : 0 < n -> wf n n P -> wf n n (fpp_g P k).
Proof.
  intros Hn W. induction k as [|k IH]; [exact W|]. cbn [fpp_g]. apply (wf_mmul n n n); auto.
  unfold offdiag. rewrite (wf_nrows _ _ _ IH), (wf_ncols _ _ _ IH Hn). apply wf_mk.
Qed.
Lemma fpp_g_spec n P k : 0 < n -> wf n n P -> forall i j, i < n -> j < n ->
  mget (fpp_g P k) i j = prob_paths n P (S k) i (first_entry [j]).
Proof.
  intros Hn W. induction k as [|k IH]; intros i j Hi Hj.
  - cbn [fpp_g]. rewrite first_entry_1. rewrite (sumn_single n _ j Hj).
    + unfold memn. simpl. rewrite Nat.eqb_refl. reflexivity.
    + intros x _ Hne. unfold memn. simpl. destruct (Nat.eqb_spec x j); [contradiction|reflexivity].
  - cbn [fpp_g]. assert (WG := fpp_g_wf n P k Hn W). unfold offdiag. rewrite (wf_nrows _ _ _ WG), (wf_ncols _ _ _ WG Hn).
    rewrite (mget_mmul n n n) by (auto; apply wf_mk). rewrite first_entry_SS. apply sumn_ext. intros x Hx. rewrite mget_mk by assumption.
    unfold memn. simpl. destruct (Nat.eqb_spec x j); cbn [orb]; [ring|]. rewrite IH by assumption. reflexivity.
Qed.
Lemma fpp_spec n P steps i : 0 < n -> wf n n P -> i < n -> 1 <= steps ->
  exists z, first_passage_probabilities P steps i = Ok z /\ wf steps n z /\
    forall k j, 1 <= k <= steps -> j < n -> mget z (k - 1) j = prob_paths n P k i (first_entry [j]).
Proof.
  intros Hn W Hi Hs. unfold first_passage_probabilities. destruct (Nat.ltb_spec 0 steps); [|lia].
  rewrite (wf_nrows _ _ _ W). eexists. split; [reflexivity|]. split; [apply wf_mk|].
  intros k j Hk Hj. rewrite mget_mk by lia. rewrite (fpp_g_spec n) by assumption. do 2 f_equal. lia.
Qed.

(** C47 *)
Lemma fpp_set_sum n P steps i S : 0 < n -> wf n n P -> i < n -> 1 <= steps -> (forall j, In j S -> j < n) ->
  exists z, first_passage_set_probabilities P steps i S = Ok z /\ length z = steps /\
    forall k, 1 <= k <= steps -> vget z (k - 1) = lsum (map (fun j => prob_paths n P k i (first_entry [j])) S).
Proof.
  intros Hn W Hi Hs HS. unfold first_passage_set_probabilities. destruct (Nat.ltb_spec 0 steps); [|lia].
  eexists. split; [reflexivity|]. split; [apply tab_length|]. intros k Hk. rewrite vget_tab by lia. apply lsum_map_ext.
  intros j Hj. rewrite (fpp_g_spec n) by auto. do 2 f_equal. lia.
Qed.
Lemma prob_paths_nonneg n P k c : (forall i j, i < n -> j < n -> (0 <= mget P i j)%Qc) -> forall i, i < n -> (0 <= prob_paths n P k i c)%Qc.
Proof.
  intros Pos. revert c. induction k as [|k IH]; intros c i Hi.
  - unfold prob_paths. simpl. destruct (c []); qclra.
  - rewrite prob_paths_S. apply sumn_nonneg. intros x Hx. apply Qc_mul_nonneg; [apply Pos; assumption|apply IH; exact Hx].
Qed.
Lemma first_entry_total n P S : stochastic n P -> forall K i, i < n -> (sumn K (fun k => prob_paths n P (k + 1) i (first_entry S)) <= 1)%Qc.
Proof.
  intros (W & Pos & Sum). induction K as [|K IH]; intros i Hi; [discriminate|].
  rewrite sumn_S_front. cbn [Nat.add]. rewrite first_entry_1.
  rewrite (sumn_ext K _ (fun k => sumn n (fun x => if memn x S then 0q else (mget P i x * prob_paths n P (k + 1) x (first_entry S))%Qc))).
  2:{ intros k _. rewrite Nat.add_1_r, first_entry_SS. reflexivity. }
  rewrite sumn_swap, <- sumn_plus, <- (Sum i Hi). apply sumn_le. intros x Hx. specialize (IH x Hx). pose proof (Pos i x Hi Hx) as Px.
  destruct (memn x S).
  - rewrite sumn_0 by reflexivity. qclra.
  - rewrite sumn_mul_l. 
    pose proof (Qc_mul_nonneg (mget P i x) (1 - sumn K (fun k => prob_paths n P (k + 1) x (first_entry S)))%Qc Px ltac:(qclra)) as H.
    qcnra.
Qed.
Lemma fpp_singleton n P steps i s : 0 < n -> stochastic n P -> i < n -> 1 <= steps -> s < n ->
  exists z, first_passage_set_probabilities P steps i [s] = Ok z /\ length z = steps /\
    (forall k, 1 <= k <= steps -> vget z (k - 1) = prob_paths n P k i (first_entry [s])) /\
    (lsum z <= 1)%Qc.
Proof.
  intros Hn St Hi Hs Hlt. destruct (fpp_set_sum n P steps i [s] Hn (proj1 St) Hi Hs ltac:(intros j [<-|[]]; exact Hlt)) as (z & E & L & V).
  exists z. split; [exact E|]. split; [exact L|].
  assert (V' : forall k, 1 <= k <= steps -> vget z (k - 1) = prob_paths n P k i (first_entry [s])).
  { intros k Hk. rewrite V by exact Hk. simpl map. cbn [lsum fold_right]. ring. }
  split; [exact V'|]. rewrite lsum_nth, L.
  rewrite (sumn_ext steps _ (fun k => prob_paths n P (k + 1) i (first_entry [s]))).
  - apply first_entry_total; assumption.
  - intros k Hk. rewrite <- V' by lia. unfold vget. f_equal. lia.
Qed.

(** C48 *)
Section FPR.
Variables (n : nat) (P : mat) (fps : list nat) (r : vec).
Hypothesis Hn : 0 < n.
Hypothesis W : wf n n P.
Let other := filter (fun j => negb (memn j fps)) (seq 0 n).
Let m := mix P other other.
Let mr := map (vget r) other.
Lemma other_nd : NoDup other.
Proof. apply NoDup_filter, seq_NoDup. Qed.
Lemma other_in x : In x other <-> x < n /\ ~ In x fps.
Proof. unfold other. rewrite filter_In, in_seq, negb_true_iff, memn_false. split; intros [A B]; split; auto; lia. Qed.
Lemma other_lt x : In x other -> x < n.
Proof. intros H. apply other_in in H. apply H. Qed.
Definition fpr_step (k i : nat) : Qc := exp_paths n P k i (fun w => if avoids fps w then vget r (path_end i w) else 0q).
Lemma path_end_cons i x w : path_end i (x :: w) = path_end x w.
Proof.
  unfold path_end. destruct w as [|y w]; [reflexivity|]. change (last (x :: y :: w) i) with (last (y :: w) i).
  revert y. induction w as [|z w IH]; intros y; [reflexivity|]. exact (IH z).
Qed.
Lemma fpr_step_S k i : fpr_step (S k) i = sumn n (fun x => if memn x fps then 0q else (mget P i x * fpr_step k x)%Qc).
Proof.
  unfold fpr_step. rewrite exp_paths_S. apply sumn_ext. intros x _.
  destruct (memn x fps) eqn:E.
  - rewrite (exp_paths_ext n P k x _ (fun _ => 0 * 0)%Qc).
    + rewrite exp_paths_mul. ring.
    + intros w _. unfold avoids. cbn [forallb]. rewrite E. cbn. ring.
  - f_equal. apply exp_paths_ext. intros w _. unfold avoids. cbn [forallb]. rewrite E, path_end_cons. reflexivity.
Qed.
Lemma mr_len : length mr = length other.
Proof. apply map_length. Qed.
Lemma fpr_power k : 0 < length other -> forall a, a < length other -> vget (mvmul (mpow m k) mr) a = fpr_step k (nth a other 0).
Proof.
  intros H0. assert (Wm : wf (length other) (length other) m) by apply wf_mix.
  induction k as [|k IH]; intros a Ha.
  - cbn [mpow]. rewrite (wf_nrows _ _ _ Wm). rewrite mvmul_eye by apply mr_len. unfold fpr_step. rewrite exp_paths_0. cbn.
    unfold mr, vget at 1. rewrite (nth_indep _ 0q (vget r 0)) by (rewrite map_length; exact Ha). rewrite map_nth. reflexivity.
  - rewrite (mpow_S_l (length other)) by assumption.
    rewrite <- (mvmul_mmul (length other) (length other) (length other)) by (auto; apply wf_mpow; assumption).
    rewrite (vget_mvmul (length other) (length other)) by assumption. rewrite fpr_step_S.
    rewrite (sumn_ext (length other) _ (fun b => (fun x => if memn x fps then 0q else (mget P (nth a other 0%nat) x * fpr_step k x)%Qc) (nth b other 0%nat))).
    + apply (sumn_block n other (fun x => if memn x fps then 0q else (mget P (nth a other 0%nat) x * fpr_step k x)%Qc) other_nd other_lt).
      intros x Hx Hnot. destruct (memn x fps) eqn:E; [reflexivity|]. exfalso. apply Hnot, other_in. split; [exact Hx|apply memn_false; exact E].
    + intros b Hb. rewrite IH by exact Hb. unfold m. rewrite mget_mix by assumption.
      pose proof (proj1 (other_in _) (nth_In other 0 Hb)) as [_ HN]. apply memn_false in HN. cbv beta. rewrite HN. reflexivity.
Qed.
Lemma fpr_loop_spec i steps : 0 < length other -> length i = length other -> forall k reward,
  fpr_loop steps m (mpow m k) i mr reward = (reward + sumn steps (fun t => sumn (length other) (fun a => vget i a * fpr_step (k + t) (nth a other 0%nat))))%Qc.
Proof.
  intros H0 Hi. induction steps as [|s IH]; intros k reward; [cbn; ring|].
  cbn [fpr_loop]. change (mmul (mpow m k) m) with (mpow m (S k)). rewrite IH. rewrite sumn_S_front, Nat.add_0_r.
  unfold vdot. rewrite Hi. rewrite (sumn_ext (length other) (fun i0 => vget i i0 * vget (mvmul (mpow m k) mr) i0)%Qc (fun a => vget i a * fpr_step k (nth a other 0%nat))%Qc).
  2:{ intros a Ha. rewrite fpr_power by assumption. reflexivity. }
  rewrite (sumn_ext s (fun t => sumn (length other) (fun a => vget i a * fpr_step (S k + t) (nth a other 0%nat)))%Qc (fun t => sumn (length other) (fun a => vget i a * fpr_step (k + S t) (nth a other 0%nat)))%Qc).
  2:{ intros t _. replace (S k + t) with (k + S t) by lia. reflexivity. }
  ring.
Qed.
End FPR.
Lemma fpr_offset_spec fps initial : forall js k idx, index_of Nat.eqb initial (filter (fun j => negb (memn j fps)) js) = Some idx ->
  fpr_offset js fps initial k = k + idx.
Proof.
  induction js as [|j js IH]; intros k idx H; [discriminate|]. cbn [fpr_offset filter] in *. destruct (memn j fps); cbn [negb] in *.
  - apply IH; exact H.
  - cbn [index_of] in H. rewrite Nat.eqb_sym in H. destruct (Nat.eqb j initial); [injection H as <-; lia|].
    destruct (index_of Nat.eqb initial _) as [x|] eqn:E; [|discriminate]. injection H as <-. rewrite (IH (k + 1) x) by reflexivity. lia.
Qed.
Lemma fpr_spec n P steps initial fps r : n <> 2 -> 0 < n -> wf n n P -> length r = n -> 1 <= steps -> initial < n ->
  ~ In initial fps -> length fps <> n - 1 ->
  first_passage_reward P steps initial fps r =
    Ok (sumn steps (fun k => exp_paths n P (k + 1) initial (fun w => if avoids fps w then vget r (path_end initial w) else 0q))).
Proof.
  intros N2 Hn W Lr Hs Hi HN HL. unfold first_passage_reward. rewrite (wf_nrows _ _ _ W), Lr.
  destruct (Nat.ltb_spec 0 steps); [|lia]. rewrite Nat.eqb_refl. destruct (Nat.eqb_spec n 2); [contradiction|].
  pose proof HN as HN'. apply memn_false in HN. rewrite HN. destruct (Nat.eqb_spec (length fps) (n - 1)); [contradiction|]. cbn [negb].
  set (other := filter (fun j => negb (memn j fps)) (seq 0 n)).
  assert (Hin : In initial other) by (apply other_in; auto).
  destruct (index_of_nat_in initial other Hin) as (idx & E & Hidx & Enth).
  rewrite (fpr_offset_spec fps initial (seq 0 n) 1 idx E). replace (1 + idx - 1) with idx by lia.
  rewrite <- (mpow_1 (length other) (mix P other other)) at 2 by (try apply wf_mix; lia).
  rewrite (fpr_loop_spec n P fps r) by (try apply tab_length; fold other; lia). fold other. f_equal.
  rewrite Qcplus_0_l. apply sumn_ext. intros t _.
  rewrite (sumn_ext (length other) _ (fun a => delta idx a * fpr_step n P fps r (1 + t) (nth a other 0%nat))%Qc).
  2:{ intros a Ha. rewrite vget_tab by exact Ha. reflexivity. }
  rewrite sumn_delta_l by exact Hidx. rewrite Enth. unfold fpr_step. f_equal. lia.
Qed.

(** C52 *)
Lemma iter_n_S {A} k (f : A -> A) x : iter_n (S k) f x = f (iter_n k f x).
Proof. revert x. induction k as [|k IH]; intros x; [reflexivity|]. change (iter_n (S k) f (f x) = f (iter_n k f (f x))). apply IH. Qed.
Lemma iter_n_add {A} a b (f : A -> A) x : iter_n (a + b) f x = iter_n a f (iter_n b f x).
Proof. revert x. induction b as [|b IH]; intros x; [rewrite Nat.add_0_r; reflexivity|]. rewrite Nat.add_succ_r. cbn [iter_n]. apply IH. Qed.
Lemma vmul_iter n P x k : 0 < n -> wf n n P -> length x = n ->
  length (iter_n k (fun v => vmul v P) x) = n /\ forall j, j < n -> vget (iter_n k (fun v => vmul v P) x) j = step_dist n P x k j.
Proof.
  intros Hn W Lx. induction k as [|k [IH1 IH2]].
  - split; [exact Lx|]. intros j Hj. rewrite step_dist_0 by exact Hj. reflexivity.
  - rewrite iter_n_S. split; [apply (length_vmul n n); assumption|]. intros j Hj. apply (vmul_step n P _ x k Hn W IH2 j Hj).
Qed.
Lemma l1dist_after n P x v k : 0 < n -> wf n n P -> length x = n -> l1dist (iter_n k (fun v => vmul v P) x) v = l1_after n P x v k.
Proof.
  intros Hn W Lx. destruct (vmul_iter n P x k Hn W Lx) as [L V]. unfold l1dist, l1_after. rewrite L. apply sumn_ext.
  intros j Hj. rewrite V by exact Hj. reflexivity.
Qed.
(** the loop started after [it] iterations, with d the distribution after it+1 steps *)
Lemma mixing_loop_spec n P pi jump cutoff x : 0 < n -> wf n n P -> length x = n -> forall fuel it tvd,
  it + fuel = 100 -> (cutoff < tvd)%Qc ->
  match mixing_loop fuel P pi jump cutoff it tvd (iter_n (S it) (fun v => vmul v P) x) (it * jump) with
  | Some mt => exists t, it < t <= 99 /\ mt = t * jump /\ (l1_after n P x pi t <= cutoff)%Qc /\ forall s, it < s < t -> (cutoff < l1_after n P x pi s)%Qc
  | None => forall s, it < s <= 99 -> (cutoff < l1_after n P x pi s)%Qc
  end.
Proof.
  intros Hn W Lx. induction fuel as [|fuel IH]; intros it tvd Hf Ht.
  - cbn [mixing_loop]. assert (it = 100) by lia. subst it. rewrite Nat.eqb_refl. intros s Hs. lia.
  - cbn [mixing_loop]. destruct (Qcltb_spec cutoff tvd); [|exfalso; qclra].
    rewrite (l1dist_after n P x pi (S it) Hn W Lx).
    replace (vmul (iter_n (S it) (fun v => vmul v P) x) P) with (iter_n (S (S it)) (fun v => vmul v P) x) by (rewrite (iter_n_S (S it)); reflexivity).
    rewrite Nat.add_1_r.
    replace (it * jump + jump) with (S it * jump) by lia.
    destruct (Qclt_le_dec cutoff (l1_after n P x pi (S it))) as [L|L].
    + specialize (IH (S it) (l1_after n P x pi (S it)) ltac:(lia) L).
      destruct (mixing_loop fuel P pi jump cutoff (S it) (l1_after n P x pi (S it)) (iter_n (S (S it)) (fun v => vmul v P) x) (S it * jump)) as [mt|].
      * destruct IH as (t & H1 & H2 & H3 & H4). exists t. split; [lia|]. split; [exact H2|]. split; [exact H3|].
        intros s Hs. destruct (Nat.eq_dec s (S it)) as [->|]; [exact L|apply H4; lia].
      * intros s Hs. destruct (Nat.eq_dec s (S it)) as [->|]; [exact L|apply IH; lia].
    + destruct fuel as [|fuel]; cbn [mixing_loop].
      * assert (E100 : S it = 100) by lia. rewrite E100, Nat.eqb_refl. intros s Hs. lia.
      * destruct (Qcltb_spec cutoff (l1_after n P x pi (S it))); [exfalso; qclra|].
        destruct (Nat.eqb_spec (S it) 100); [lia|]. exists (S it). split; [lia|]. split; [lia|]. split; [exact L|]. intros s Hs; lia.
Qed.
Lemma is_ergodic_irr n m : env_ok n m -> is_ergodic m = Ok true -> irreducible n (edge (en_p m)).
Proof.
  intros (Hn & St & _ & _ & HO & _). unfold is_ergodic. destruct (is_irreducible (en_comps m)) eqn:E; [|discriminate]. intros _.
  apply (is_irreducible_spec n _ (en_comps m)); auto; [lia|apply St].
Qed.
Lemma is_ergodic_spec n m : env_ok n m -> exists b, is_ergodic m = Ok b /\ (b = true <-> ergodic n (en_p m)).
Proof.
  intros (Hn & St & HL & HN & HO). unfold is_ergodic. pose proof (is_irreducible_spec n (en_p m) (en_comps m) ltac:(lia) (proj1 St) (proj1 HO)) as HI.
  destruct (is_irreducible (en_comps m)) eqn:E.
  - pose proof (proj1 HI eq_refl) as Irr.
    destruct (period_irreducible n (en_p m) (en_names m) (en_nx m) (en_nxa m) Hn St HL HN HO Irr) as (d & _ & D1 & Dp & ->).
    eexists. split; [reflexivity|]. rewrite Z.eqb_eq. split.
    + intros ->. split; assumption.
    + intros [_ Pd]. destruct (Dp 0 ltac:(lia)) as (_ & A & B). destruct (Pd 0 ltac:(lia)) as (_ & A' & B').
      specialize (B' d A). apply Z.divide_1_r in B'. lia.
  - exists false. split; [reflexivity|]. split; [discriminate|]. intros [Irr _]. apply HI in Irr. discriminate.
Qed.
Lemma ergodic_pi n m : env_ok n m -> irreducible n (edge (en_p m)) -> exists pi, pi0 m = Ok pi /\ distribution n pi /\ stationary n (en_p m) pi /\
  (forall i, i < n -> (0 < vget pi i)%Qc) /\ forall v, distribution n v -> stationary n (en_p m) v -> v = pi.
Proof.
  intros (Hn & St & HL & HN & HO) Irr.
  destruct (pi_unique n (en_p m) (en_comps m) ltac:(lia) St Irr (proj1 HO)) as (x & E & (D & S & P) & U).
  exists x. unfold pi0. rewrite E. cbn [bind]. split; [reflexivity|]. split; [exact D|]. split; [exact S|]. split; [|exact U].
  intros i Hi. apply P; [exact Hi|]. apply in_seq. lia.
Qed.
Lemma mixing_time_spec n m x jump cutoff : env_ok n m -> ergodic n (en_p m) -> distribution n x -> 1 <= jump -> (cutoff < 1)%Qc ->
  exists pi, stationary n (en_p m) pi /\ distribution n pi /\
  exists o, mixing_time m x jump cutoff = Ok o /\
  match o with
  | Some mt => exists t, 1 <= t <= 99 /\ mt = t * jump /\ (l1_after n (en_p m) x pi t <= cutoff)%Qc /\
                 forall s, 1 <= s < t -> (cutoff < l1_after n (en_p m) x pi s)%Qc
  | None => forall s, 1 <= s <= 99 -> (cutoff < l1_after n (en_p m) x pi s)%Qc
  end.
Proof.
  intros HE Er Dx Hj Hc. destruct (is_ergodic_spec n m HE) as (b & Eb & Hb). assert (b = true) by (apply Hb; exact Er). subst b.
  destruct (ergodic_pi n m HE (proj1 Er)) as (pi & Epi & D & St & _). exists pi. split; [exact St|]. split; [exact D|].
  destruct HE as (Hn & Sto & _). pose proof (proj1 Sto) as W.
  unfold mixing_time. destruct (Nat.ltb_spec 0 jump); [|lia]. unfold en_size. rewrite (wf_nrows _ _ _ W), (proj1 Dx), Nat.eqb_refl.
  rewrite Eb. cbn [bind negb]. rewrite Epi. cbn [bind]. eexists. split; [reflexivity|].
  pose proof (mixing_loop_spec n (en_p m) pi jump cutoff x ltac:(lia) W (proj1 Dx) 100 0 1q eq_refl Hc) as H1.
  change (0 * jump) with 0 in H1. change (iter_n 1 (fun v => vmul v (en_p m)) x) with (vmul x (en_p m)) in H1.
  destruct (mixing_loop 100 (en_p m) pi jump cutoff 0 1q (vmul x (en_p m)) 0); [|intros s Hs; apply H1; lia].
  destruct H1 as (t & A & B & C & E). exists t. split; [lia|]. split; [exact B|]. split; [exact C|]. intros s Hs; apply E; lia.
Qed.
Lemma mixing_not_ergodic n m x jump cutoff : env_ok n m -> ~ ergodic n (en_p m) -> distribution n x -> 1 <= jump ->
  mixing_time m x jump cutoff = Ok None.
Proof.
  intros HE Er Dx Hj. destruct (is_ergodic_spec n m HE) as (b & Eb & Hb). destruct b; [exfalso; apply Er, Hb; reflexivity|].
  destruct HE as (Hn & Sto & _). unfold mixing_time. destruct (Nat.ltb_spec 0 jump); [|lia].
  unfold en_size. rewrite (wf_nrows _ _ _ (proj1 Sto)), (proj1 Dx), Nat.eqb_refl, Eb. reflexivity.
Qed.

(** C53 *)
Lemma mvmul_iter n P o k : 0 < n -> wf n n P -> length o = n ->
  length (iter_n k (mvmul P) o) = n /\ forall i, i < n -> vget (iter_n k (mvmul P) o) i = sumn n (fun j => kstep n P k i j * vget o j)%Qc.
Proof.
  intros Hn W Lo. induction k as [|k [IH1 IH2]].
  - split; [exact Lo|]. intros i Hi. rewrite (sumn_ext n _ (fun j => delta i j * vget o j)%Qc) by (intros; rewrite kstep_0; reflexivity).
    rewrite sumn_delta_l by exact Hi. reflexivity.
  - rewrite iter_n_S. split; [apply (length_mvmul n n); assumption|]. intros i Hi. rewrite (vget_mvmul n n) by assumption.
    rewrite (sumn_ext n _ (fun x => sumn n (fun j => mget P i x * kstep n P k x j * vget o j))%Qc).
    2:{ intros x Hx. rewrite IH2 by exact Hx. rewrite <- sumn_mul_l. apply sumn_ext; intros; ring. }
    rewrite sumn_swap. apply sumn_ext. intros j Hj. rewrite kstep_S, <- sumn_mul_r. reflexivity.
Qed.
Lemma time_loop_spec f out v0 : forall ts start, StronglySorted lt ts ->
  match start with Some (prev, v) => v = iter_n prev f v0 /\ (forall t, In t ts -> prev <= t) | None => True end ->
  time_loop f out v0 start ts = map (fun t => out (iter_n t f v0)) ts.
Proof.
  induction ts as [|t ts IH]; intros start HS Hst; [reflexivity|]. cbn [time_loop map]. inversion HS as [|? ? HS' HF]; subst.
  assert (E : match start with
                | Some (prev, v) => iter_n (t - prev) f v
                | None => if Nat.leb 2 t then iter_n (t - 2) f (f (f v0)) else if Nat.eqb t 1 then f v0 else v0
                end = iter_n t f v0).
  { destruct start as [[prev v]|].
    - destruct Hst as [-> Hp]. rewrite <- iter_n_add. f_equal. specialize (Hp t (or_introl eq_refl)). lia.
    - destruct (Nat.leb_spec 2 t); [change (f (f v0)) with (iter_n 2 f v0); rewrite <- iter_n_add; f_equal; lia|].
      destruct (Nat.eqb_spec t 1) as [->|]; [reflexivity|]. assert (t = 0) by lia. subst. reflexivity. }
  rewrite E. f_equal. apply IH; [exact HS'|]. split; [reflexivity|]. intros u Hu. rewrite Forall_forall in HF. specialize (HF u Hu). lia.
Qed.
Lemma observations_len n s : length (observations n s) = n.
Proof. apply tab_length. Qed.
(** the value of the time correlation at time t *)
Lemma time_correlations_spec n m d s1 s2 ts v : env_ok n m ->
  stationary_distributions (en_p m) (en_comps m) = Ok [v] -> StronglySorted lt ts -> ts <> [] ->
  (last ts 0 <= n \/ diagonalises n (en_p m) d) ->
  time_correlations m (Ok d) s1 s2 ts = Ok (Some (map (corr_at n (en_p m) v s1 (match s2 with None => s1 | Some s => s end)) ts)).
Proof.
  intros (Hn & St & _) Ev HS Hne HT. pose proof (proj1 St) as W. unfold time_correlations. cbn [bind]. rewrite Ev. cbn [bind]. change (Nat.ltb 1 (length [v])) with false. cbv iota.
  unfold en_size. rewrite (wf_nrows _ _ _ W).
  set (o2 := match s2 with Some s => observations n s | None => observations n s1 end).
  assert (L2 : length o2 = n) by (unfold o2; destruct s2; apply observations_len).
  assert (V2 : forall j, j < n -> vget o2 j = Qcn (count_occ Nat.eq_dec (match s2 with None => s1 | Some s => s end) j)).
  { intros j Hj. unfold o2; destruct s2; unfold observations; rewrite vget_tab by exact Hj; reflexivity. }
  destruct (Nat.ltb_spec n (last ts 0)) as [L|L].
  - destruct HT as [HT|D]; [lia|]. do 2 f_equal. apply map_ext. intros t.
    unfold vdot. rewrite tab_length. unfold corr_at. apply sumn_ext. intros i Hi. rewrite vget_tab by exact Hi.
    unfold observations. rewrite vget_tab by exact Hi. f_equal. unfold rdl_power. rewrite (vget_mvmul n n); [|apply (rdl_wf_mid n (en_p m) d ltac:(lia) D)|exact Hi].
    apply sumn_ext. intros j Hj. rewrite V2 by exact Hj. f_equal. rewrite (rdl_mid n (en_p m) d ltac:(lia) D) by assumption. apply (rdl_kstep n (en_p m) d ltac:(lia) D); assumption.
  - rewrite (time_loop_spec _ _ _ ts None HS I). do 2 f_equal. apply map_ext. intros t.
    unfold vdot. rewrite tab_length. unfold corr_at. apply sumn_ext. intros i Hi. rewrite vget_tab by exact Hi.
    unfold observations. rewrite vget_tab by exact Hi. f_equal. destruct (mvmul_iter n (en_p m) o2 t ltac:(lia) W L2) as [_ ->]; [|exact Hi].
    apply sumn_ext. intros j Hj. rewrite V2 by exact Hj. reflexivity.
Qed.
Lemma time_relaxations_spec n m d s x ts v : env_ok n m ->
  stationary_distributions (en_p m) (en_comps m) = Ok [v] -> length x = n -> StronglySorted lt ts -> ts <> [] ->
  (last ts 0 <= n \/ diagonalises n (en_p m) d) ->
  time_relaxations m (Ok d) s x ts = Ok (Some (map (relax_at n (en_p m) x s) ts)).
Proof.
  intros (Hn & St & _) Ev Lx HS Hne HT. pose proof (proj1 St) as W. unfold time_relaxations. unfold en_size. rewrite (wf_nrows _ _ _ W), Lx, Nat.eqb_refl.
  cbn [bind]. rewrite Ev. cbn [bind]. change (Nat.ltb 1 (length [v])) with false. cbv iota.
  destruct (Nat.ltb_spec n (last ts 0)) as [L|L].
  - destruct HT as [HT|D]; [lia|]. do 2 f_equal. apply map_ext. intros t. assert (WM := rdl_wf_mid n (en_p m) d ltac:(lia) D).
    unfold vdot, rdl_power. rewrite (length_vmul n n) by (auto; lia). unfold relax_at. apply sumn_ext. intros j Hj.
    unfold observations. rewrite vget_tab by exact Hj. f_equal. rewrite (vget_vmul n n) by (auto; lia). unfold step_dist.
    apply sumn_ext. intros i Hi. f_equal. rewrite (rdl_mid n (en_p m) d ltac:(lia) D) by assumption. apply (rdl_kstep n (en_p m) d ltac:(lia) D); assumption.
  - rewrite (time_loop_spec _ _ _ ts None HS I). do 2 f_equal. apply map_ext. intros t.
    destruct (vmul_iter n (en_p m) x t ltac:(lia) W Lx) as [Li Vi]. unfold vdot. rewrite Li. unfold relax_at. apply sumn_ext. intros j Hj.
    rewrite Vi by exact Hj. unfold observations. rewrite vget_tab by exact Hj. reflexivity.
Qed.
