(** L_Bw: the Baum-Welch iteration computes expected counts and never decreases the
    likelihood. *)
From Verif Require Export S_Bw L_Hmm3 L_Entropy.
From Coq Require Import Reals Qreals Lra.
Close Scope Q_scope. Close Scope R_scope.
Open Scope nat_scope.
Open Scope res_scope.

(** ** Sums over full runs *)
Lemma full_sum : forall n P E x obs f,
  lsum (map (fun l => full_prob P E x obs l * f l)%Qc (words n (S (length obs)))) =
  sumn n (fun i => vget x i * lsum (map (fun w => f (i :: w) * joint_from P E i w obs)%Qc (words n (length obs))))%Qc.
Proof.
  intros. rewrite words_sum. apply sumn_ext. intros i _. rewrite <- lsum_map_mul_l. apply lsum_map_ext. intros w _. cbn [full_prob]. ring.
Qed.
Lemma full_total : forall n P E x obs, lsum (map (full_prob P E x obs) (words n (S (length obs)))) = likelihood n P E x obs.
Proof.
  intros. unfold likelihood, paths_total, joint. rewrite lsum_map_sumn, words_sum. apply sumn_ext. intros i _.
  apply lsum_map_ext. intros w _. reflexivity.
Qed.
Definition at2 (t u v : nat) (l : list nat) : bool := Nat.eqb (nth t l 0) u && Nat.eqb (nth (S t) l 0) v.
Lemma tot_pair : forall n P E obs x t u v, t < length obs -> u < n -> v < n ->
  tot n P E x obs (fun i w => at2 t u v (i :: w)) =
  (alpha n P E (firstn t obs) x u * mget P u v * mget E v (nth t obs 0%nat) * beta n P E (skipn (S t) obs) v)%Qc.
Proof.
  intros n P E obs; induction obs as [|o obs IH]; intros x t u v Ht Hu Hv; [cbn in Ht; lia|]. destruct t as [|t].
  - unfold at2. cbn [firstn alpha nth skipn]. unfold tot. rewrite (sumn_single n _ u Hu).
    + rewrite Nat.eqb_refl. cbn [andb length]. rewrite words_sum. rewrite (sumn_single n _ v Hv).
      * cbn [joint_from nth]. rewrite (lsum_map_ext _ (fun w => (mget P u v * mget E v o) * joint_from P E v w obs)%Qc) by (intros w _; rewrite Nat.eqb_refl; reflexivity).
        rewrite lsum_map_mul_l. change (lsum (map (fun w => joint_from P E v w obs) (words n (length obs)))) with (future n P E v obs). rewrite future_beta. ring.
      * intros j Hj Hne. apply lsum_map_0. intros w _. cbn [nth]. destruct (Nat.eqb_spec j v); [congruence|reflexivity].
    + intros j Hj Hne. rewrite lsum_map_0; [ring|]. intros w _. destruct (Nat.eqb_spec j u); [congruence|reflexivity].
  - unfold at2. cbn [nth]. rewrite (tot_step n P E x o obs (fun w => Nat.eqb (nth t w 0) u && Nat.eqb (nth (S t) w 0) v)).
    cbn [firstn alpha skipn]. apply (IH (stepf n P E o x) t u v); [cbn in Ht; lia|exact Hu|exact Hv].
Qed.
(** sums of 0/1 functions over full runs *)
Lemma full_bool : forall n P E x obs (c : list nat -> bool),
  lsum (map (fun l => full_prob P E x obs l * (if c l then 1q else 0q))%Qc (words n (S (length obs)))) = tot n P E (vget x) obs (fun i w => c (i :: w)).
Proof.
  intros. rewrite full_sum. unfold tot. apply sumn_ext. intros i _. f_equal. apply lsum_map_ext. intros w _. destruct (c (i :: w)); ring.
Qed.
Lemma full_occ : forall n P E x obs m (c : list nat -> nat -> bool),
  lsum (map (fun l => full_prob P E x obs l * occurrences m (c l))%Qc (words n (S (length obs)))) =
  sumn m (fun t => tot n P E (vget x) obs (fun i w => c (i :: w) t)).
Proof.
  intros. unfold occurrences.
  rewrite (lsum_map_ext _ (fun l => sumn m (fun t => full_prob P E x obs l * (if c l t then 1q else 0q))%Qc)) by (intros; symmetry; apply sumn_mul_l).
  rewrite lsum_map_sumn. apply sumn_ext. intros t _. apply (full_bool n P E x obs (fun l => c l t)).
Qed.
Lemma words_len : forall n k w, In w (words n k) -> length w = k.
Proof. intros n k w H. apply in_words in H. apply H. Qed.
Lemma mean_moves_eq : forall n P E x obs u v, u < n -> v < n ->
  mean_moves n P E x obs u v =
  (sumn (length obs) (fun t => alpha n P E (firstn t obs) (vget x) u * mget P u v * mget E v (nth t obs 0%nat) * beta n P E (skipn (S t) obs) v) / likelihood n P E x obs)%Qc.
Proof.
  intros n P E x obs u v Hu Hv. unfold mean_moves, hidden_mean. f_equal.
  rewrite (lsum_map_ext _ (fun l => full_prob P E x obs l * occurrences (length obs) (fun t => at2 t u v l))%Qc).
  2:{ intros l Hl. unfold seen_moves. rewrite (words_len _ _ _ Hl). replace (S (length obs) - 1) with (length obs) by lia. reflexivity. }
  rewrite (full_occ n P E x obs (length obs) (fun l t => at2 t u v l)). apply sumn_ext. intros t Ht. apply tot_pair; assumption.
Qed.
Lemma mean_symbols_eq : forall n P E x obs u y, u < n ->
  mean_symbols n P E x obs u y =
  (sumn (length obs) (fun t => if Nat.eqb (nth t obs 0%nat) y then alpha n P E (firstn (S t) obs) (vget x) u * beta n P E (skipn (S t) obs) u else 0q) / likelihood n P E x obs)%Qc.
Proof.
  intros n P E x obs u y Hu. unfold mean_symbols, hidden_mean. f_equal.
  rewrite (lsum_map_ext _ (fun l => full_prob P E x obs l * occurrences (length obs) (fun t => Nat.eqb (nth t (tl l) 0%nat) u && Nat.eqb (nth t obs 0%nat) y))%Qc).
  2:{ intros l Hl. unfold seen_symbols. apply words_len in Hl. destruct l as [|i w]; [discriminate|]. cbn [tl]. injection Hl as ->. reflexivity. }
  rewrite (full_occ n P E x obs (length obs) (fun l t => Nat.eqb (nth t (tl l) 0%nat) u && Nat.eqb (nth t obs 0%nat) y)). apply sumn_ext. intros t Ht. cbn [tl].
  destruct (Nat.eqb (nth t obs 0) y).
  - rewrite <- (tot_at n P E obs (vget x) t u Ht Hu). unfold tot. apply sumn_ext. intros i _. f_equal. apply lsum_map_ext. intros w _. rewrite Bool.andb_true_r. reflexivity.
  - unfold tot. apply sumn_0. intros i _. rewrite lsum_map_0; [ring|]. intros w _. rewrite Bool.andb_false_r. reflexivity.
Qed.

(** ** One sequence: expected counts *)
Lemma tractable_decodable : forall n P E x obs, tractable n P E x obs <-> decodable n P E x obs.
Proof. intros. unfold tractable, decodable. Transparent tiny300. unfold tiny300. Opaque tiny300. reflexivity. Qed.
Lemma likelihood_nil : forall n k P E x, hmm_ok n k P E x -> likelihood n P E x [] = 1q.
Proof. intros n k P E x [_ [_ HD]]. rewrite likelihood_alpha. cbn [alpha]. apply HD. Qed.
Lemma bw_counts : forall n k P E x obs, 0 < n -> hmm_ok n k P E x -> obs_ok k obs ->
  match fit_baum_welch n k P E x obs with
  | Some (pc, ec) => tractable n P E x obs /\ (0 < likelihood n P E x obs)%Qc /\ wf n n pc /\ wf n k ec /\
      (forall u v, u < n -> v < n -> mget pc u v = mean_moves n P E x obs u v) /\
      (forall u y, u < n -> y < k -> mget ec u y = mean_symbols n P E x obs u y)
  | None => ~ tractable n P E x obs
  end.
Proof.
  intros n k P E x obs Hn HM Ho. unfold fit_baum_welch. pose proof (decode_spec n k P E x obs true Hn HM Ho) as K.
  destruct (hmm_decode P E x obs true) as [d|].
  2:{ destruct K as (t & Ht & H). intros C. apply tractable_decodable in C. apply (Qclt_not_le _ _ H). apply C. exact Ht. }
  destruct K as [Hdc K]. destruct (dk_scale _ _ _ _ _ _ _ K) as (sf & Es & Ls & S0 & Hsf). rewrite Es.
  pose proof (fun t Ht => scale_pos n k P E x obs d sf HM Ho Hdc K Es t Ht) as Sp.
  pose proof (dk_pos _ _ _ _ _ _ _ K) as HL.
  assert (Lp : forall t, t <= length obs -> (0 < likelihood n P E x (firstn t obs))%Qc).
  { induction t as [|t IH]; intros Ht; [cbn [firstn]; rewrite (likelihood_nil n k) by exact HM; reflexivity|].
    rewrite <- Hsf by lia. apply Qc_mul_pos; [apply Sp; lia|apply IH; lia]. }
  split; [apply tractable_decodable; exact Hdc|]. split; [exact HL|]. split; [apply wf_mk|]. split; [apply wf_mk|]. split.
  - intros u v Hu Hv. rewrite mget_mk by assumption. rewrite mean_moves_eq by assumption. rewrite <- sumn_div. apply sumn_ext. intros t Ht.
    unfold bw_pair. rewrite (proj2 (dk_bwd _ _ _ _ _ _ _ K) (S t) v) by lia. cbv zeta iota. rewrite future_beta.
    assert (F : vget (nth t (d_fwd d) []) u = (alpha n P E (firstn t obs) (vget x) u / likelihood n P E x (firstn t obs))%Qc).
    { destruct (dk_fwd _ _ _ _ _ _ _ K) as (_ & F0 & F1). destruct t as [|t].
      - rewrite F0. cbn [firstn alpha]. rewrite (likelihood_nil n k) by exact HM. field. discriminate.
      - rewrite F1 by lia. cbv zeta iota. rewrite prefix_alpha by lia. reflexivity. }
    rewrite F. rewrite <- (Hsf t Ht). pose proof (Qc_lt_neq _ (Sp t Ht)) as N1. pose proof (Qc_lt_neq _ HL) as N2. pose proof (Qc_lt_neq _ (Lp t ltac:(lia))) as N3.
    field. repeat split; assumption.
  - intros u y Hu Hy. rewrite mget_mk by assumption. rewrite mean_symbols_eq by assumption. rewrite <- sumn_div. apply sumn_ext. intros t Ht.
    destruct (Nat.eqb (nth t obs 0) y); [|unfold Qcdiv; ring].
    rewrite (proj2 (dk_bwd _ _ _ _ _ _ _ K) (S t) u) by lia. destruct (dk_fwd _ _ _ _ _ _ _ K) as (_ & _ & F1). rewrite F1 by lia. cbv zeta iota.
    rewrite future_beta, prefix_alpha by lia. pose proof (Qc_lt_neq _ HL) as N2. pose proof (Qc_lt_neq _ (Lp (S t) ltac:(lia))) as N3.
    field. split; assumption.
Qed.

(** ** All sequences *)
Definition bw_dec (n k : nat) (P E : mat) (x : vec) (s : list nat) : bool := match fit_baum_welch n k P E x s with Some _ => true | None => false end.
Lemma accumulate_counts : forall n k P E x seqs p e, 0 < n -> hmm_ok n k P E x -> (forall s, In s seqs -> obs_ok k s) -> wf n n p -> wf n k e ->
  let r := fit_accumulate (fit_func FitBW n k P E x) seqs p e in
  let D := filter (bw_dec n k P E x) seqs in
  wf n n (fst r) /\ wf n k (snd r) /\
  (forall u v, u < n -> v < n -> mget (fst r) u v = (mget p u v + lsum (map (fun s => mean_moves n P E x s u v) D))%Qc) /\
  (forall u y, u < n -> y < k -> mget (snd r) u y = (mget e u y + lsum (map (fun s => mean_symbols n P E x s u y) D))%Qc).
Proof.
  intros n k P E x seqs; induction seqs as [|s seqs IH]; intros p e Hn HM Hs Wp We r D.
  - subst r D. cbn [fit_accumulate filter map fst snd]. split; [exact Wp|]. split; [exact We|]. split; intros; unfold lsum; cbn [fold_right]; ring.
  - subst r D. cbn [fit_accumulate filter fit_func]. pose proof (bw_counts n k P E x s Hn HM (Hs s (or_introl eq_refl))) as C.
    assert (EB : bw_dec n k P E x s = match fit_baum_welch n k P E x s with Some _ => true | None => false end) by reflexivity.
    destruct (fit_baum_welch n k P E x s) as [[pc ec]|]; rewrite EB.
    + destruct C as (_ & _ & W1 & W2 & C1 & C2).
      specialize (IH (madd p pc) (madd e ec) Hn HM (fun s' H' => Hs s' (or_intror H')) (wf_madd _ _ _ _ Hn Wp) (wf_madd _ _ _ _ Hn We)).
      cbv zeta in IH. destruct IH as (I1 & I2 & I3 & I4). split; [exact I1|]. split; [exact I2|]. cbn [map]. split.
      * intros u v Hu Hv. rewrite I3 by assumption. rewrite (mget_madd n n) by assumption. rewrite C1 by assumption. unfold lsum. cbn [fold_right]. ring.
      * intros u y Hu Hy. rewrite I4 by assumption. rewrite (mget_madd n k) by assumption. rewrite C2 by assumption. unfold lsum. cbn [fold_right]. ring.
    + apply (IH p e Hn HM (fun s' H' => Hs s' (or_intror H')) Wp We).
Qed.

(** ** Likelihoods: Jensen and Gibbs *)
Notation lR l f := (lsumR (map f l)).
Definition lg (M' M : mat) (i j : nat) : R := (ln (Qc2R (mget M' i j)) - ln (Qc2R (mget M i j)))%R.

Lemma Qc2R_div a b : b <> 0q -> Qc2R (a / b)%Qc = (Qc2R a / Qc2R b)%R.
Proof.
  intros H. assert (N : Qc2R b <> 0%R) by (intros C; apply H; apply Qc2R_inj; rewrite C, Qc2R_0; reflexivity).
  apply (Rmult_eq_reg_r (Qc2R b)); [|exact N]. rewrite <- Qc2R_mul, Qc_div_mul by exact H. field. exact N.
Qed.
Lemma ln_quot a b : (0 < a)%R -> (0 < b)%R -> ln (a / b) = (ln a - ln b)%R.
Proof. intros Ha Hb. unfold Rdiv. rewrite ln_mult by (try apply Rinv_0_lt_compat; assumption). rewrite ln_Rinv by exact Hb. lra. Qed.
Lemma lnQ_mul a b : (0 < a)%Qc -> (0 < b)%Qc -> ln (Qc2R (a * b)%Qc) = (ln (Qc2R a) + ln (Qc2R b))%R.
Proof. intros Ha Hb. rewrite Qc2R_mul, ln_mult by (apply Qc2R_pos; assumption). reflexivity. Qed.
Lemma gibbs : forall m (a p : nat -> Qc), (forall j, j < m -> (0 <= a j)%Qc) -> (forall j, j < m -> (0 <= p j)%Qc) -> sumn m p = 1q ->
  (0 < sumn m a)%Qc -> (forall j, j < m -> p j = 0q -> a j = 0q) ->
  (0 <= lR (seq 0 m) (fun j => Qc2R (a j) * (ln (Qc2R (a j / sumn m a)%Qc) - ln (Qc2R (p j)))))%R.
Proof.
  intros m a p Ha Hp Sp HN Hz. set (N := sumn m a) in *.
  assert (K : (lR (seq 0 m) (fun j => Qc2R N * Qc2R (p j) - Qc2R (a j)) = 0)%R).
  { rewrite (ls_ext (seq 0 m) _ (fun j => Qc2R N * Qc2R (p j) + - Qc2R (a j))%R) by (intros; lra). rewrite ls_plus, ls_mul, ls_opp, <- !Qc2R_sumn. fold N. rewrite Sp, Qc2R_1. lra. }
  apply Ropp_le_cancel. rewrite Ropp_0, <- K, <- ls_opp. apply ls_le. intros j Hj. apply in_seq in Hj.
  specialize (Ha j ltac:(lia)). specialize (Hp j ltac:(lia)). specialize (Hz j ltac:(lia)). pose proof (Qc2R_pos N HN) as RN.
  destruct (pos_or_0 _ Ha) as [Pa|Za].
  - destruct (pos_or_0 _ Hp) as [Pp|Zp]; [|rewrite (Hz Zp) in Pa; exfalso; exact (Qclt_irr _ Pa)].
    pose proof (Qc2R_pos _ Pa) as RA. pose proof (Qc2R_pos _ Pp) as RP.
    rewrite Qc2R_div by (apply Qc_lt_neq; exact HN). 
    assert (L : (ln (Qc2R (p j)) - ln (Qc2R (a j) / Qc2R N) <= Qc2R (p j) * Qc2R N / Qc2R (a j) - 1)%R).
    { assert (D : (0 < Qc2R (a j) / Qc2R N)%R) by (apply Rdiv_lt_0_compat; assumption).
      pose proof (ln_le_sub (Qc2R (p j) * Qc2R N / Qc2R (a j)) ltac:(apply Rdiv_lt_0_compat; [apply Rmult_lt_0_compat|]; assumption)) as L.
      replace (Qc2R (p j) * Qc2R N / Qc2R (a j))%R with (Qc2R (p j) / (Qc2R (a j) / Qc2R N))%R in L at 1 by (field; lra).
      rewrite ln_quot in L by assumption. exact L. }
    apply (Rmult_le_compat_l (Qc2R (a j))) in L; [|lra].
    replace (Qc2R (a j) * (Qc2R (p j) * Qc2R N / Qc2R (a j) - 1))%R with (Qc2R N * Qc2R (p j) - Qc2R (a j))%R in L by (field; lra). lra.
  - rewrite Za, Qc2R_0. pose proof (Qc2R_nonneg _ Hp). nra.
Qed.

Lemma lsum_map_ge {A} (f : A -> Qc) l a : (forall y, In y l -> (0 <= f y)%Qc) -> In a l -> (f a <= lsum (map f l))%Qc.
Proof.
  induction l as [|b l IH]; intros H Ha; [destruct Ha|]. cbn [map]. unfold lsum. cbn [fold_right]. fold (lsum (map f l)).
  assert (0 <= lsum (map f l))%Qc by (apply lsum_nonneg; intros y Hy; apply in_map_iff in Hy; destruct Hy as (z & <- & Hz); apply H; right; exact Hz).
  pose proof (H b (or_introl eq_refl)). destruct Ha as [->|Ha]; [qclra|]. specialize (IH (fun y Hy => H y (or_intror Hy)) Ha). qclra.
Qed.
Section EM.
Variables (n k : nat) (P E P' E' : mat) (x : vec) (D : list (list nat)).
Hypothesis Hn : 0 < n.
Hypothesis HM : hmm_ok n k P E x.
Hypothesis HM' : hmm_ok n k P' E' x.
Hypothesis HD : forall s, In s D -> obs_ok k s /\ (0 < likelihood n P E x s)%Qc.
Hypothesis ST : em_step n k x D P E P' E'.

Let HP := proj1 HM.
Let HE := proj1 (proj2 HM).
Let Hx := proj2 (proj2 HM).

Lemma full_nonneg : forall s l, obs_ok k s -> In l (words n (S (length s))) -> (0 <= full_prob P E x s l)%Qc.
Proof.
  intros s l Hs Hl. apply in_words in Hl. destruct Hl as [_ Hl]. destruct l as [|i w]; [apply Qcle_refl|]. cbn [full_prob]. apply Qc_mul_nonneg.
  - apply Hx. apply Hl. left. reflexivity.
  - apply (joint_from_nonneg n k P E HP HE); [exact Hs|apply Hl; left; reflexivity|intros; apply Hl; right; assumption].
Qed.
Lemma full_nonneg' : forall s l, obs_ok k s -> In l (words n (S (length s))) -> (0 <= full_prob P' E' x s l)%Qc.
Proof.
  intros s l Hs Hl. apply in_words in Hl. destruct Hl as [_ Hl]. destruct l as [|i w]; [apply Qcle_refl|]. cbn [full_prob]. apply Qc_mul_nonneg.
  - apply Hx. apply Hl. left. reflexivity.
  - apply (joint_from_nonneg n k P' E' (proj1 HM') (proj1 (proj2 HM'))); [exact Hs|apply Hl; left; reflexivity|intros; apply Hl; right; assumption].
Qed.

(** indicator sums *)
Definition dsum (a b : nat) (c : nat -> nat -> Qc) (g : nat -> nat -> R) : R := lR (seq 0 a) (fun u => lR (seq 0 b) (fun v => Qc2R (c u v) * g u v)%R).
Lemma dsum_plus : forall a b c d g, dsum a b (fun u v => c u v + d u v)%Qc g = (dsum a b c g + dsum a b d g)%R.
Proof.
  intros. unfold dsum. rewrite <- ls_plus. apply ls_ext. intros u _. rewrite <- ls_plus. apply ls_ext. intros v _. rewrite Qc2R_plus. lra.
Qed.
Lemma dsum_mul : forall a b r c g, dsum a b (fun u v => r * c u v)%Qc g = (Qc2R r * dsum a b c g)%R.
Proof.
  intros. unfold dsum. rewrite <- ls_mul. apply ls_ext. intros u _. rewrite <- ls_mul. apply ls_ext. intros v _. rewrite Qc2R_mul. lra.
Qed.
Lemma dsum_0 : forall a b g, dsum a b (fun _ _ => 0q) g = 0%R.
Proof. intros. unfold dsum. apply ls_0. intros u _. apply ls_0. intros v _. rewrite Qc2R_0. lra. Qed.
Lemma dsum_ext : forall a b c d g, (forall u v, u < a -> v < b -> c u v = d u v) -> dsum a b c g = dsum a b d g.
Proof.
  intros a b c d g H. unfold dsum. apply ls_ext. intros u Hu. apply ls_ext. intros v Hv. apply in_seq in Hu. apply in_seq in Hv. rewrite H by lia. reflexivity.
Qed.
Lemma ls_delta : forall m i (f : nat -> R), i < m -> lR (seq 0 m) (fun u => if Nat.eqb i u then f u else 0%R) = f i.
Proof.
  intros m i f Hi. replace m with (i + (1 + (m - S i))) by lia. rewrite seq_app, ls_app, seq_app, ls_app. cbn [seq map].
  rewrite ls_0. 2:{ intros u Hu. apply in_seq in Hu. destruct (Nat.eqb_spec i u); [lia|reflexivity]. }
  rewrite (ls_0 (seq (0 + i + 1) _)). 2:{ intros u Hu. apply in_seq in Hu. destruct (Nat.eqb_spec i u); [lia|reflexivity]. }
  unfold lsumR. cbn. rewrite Nat.eqb_refl. lra.
Qed.
Lemma dsum_one : forall a b i j g, i < a -> j < b -> dsum a b (fun u v => if Nat.eqb i u && Nat.eqb j v then 1q else 0q) g = g i j.
Proof.
  intros a b i j g Hi Hj. unfold dsum. rewrite <- (ls_delta a i (fun u => g u j) Hi). apply ls_ext. intros u _. destruct (Nat.eqb i u); cbn [andb].
  - rewrite <- (ls_delta b j (g u) Hj). apply ls_ext. intros v _. destruct (Nat.eqb j v); rewrite ?Qc2R_1, ?Qc2R_0; lra.
  - apply ls_0. intros v _. rewrite Qc2R_0. lra.
Qed.
Lemma occ_S : forall m c, occurrences (S m) c = ((if c 0%nat then 1q else 0q) + occurrences m (fun t => c (S t)))%Qc.
Proof. intros. unfold occurrences. apply sumn_S_front. Qed.
Lemma seen_moves_cons : forall i s w u v, seen_moves (i :: s :: w) u v = ((if Nat.eqb i u && Nat.eqb s v then 1q else 0q) + seen_moves (s :: w) u v)%Qc.
Proof. intros. unfold seen_moves. cbn [length]. replace (S (S (length w)) - 1) with (S (length w)) by lia. rewrite occ_S. replace (S (length w) - 1) with (length w) by lia. reflexivity. Qed.
Lemma seen_symbols_cons : forall s w o obs u y, seen_symbols (s :: w) (o :: obs) u y = ((if Nat.eqb s u && Nat.eqb o y then 1q else 0q) + seen_symbols w obs u y)%Qc.
Proof. intros. unfold seen_symbols. cbn [length]. rewrite occ_S. reflexivity. Qed.
(** difference of the logarithms along a run *)
Fixpoint plog (i : nat) (w obs : list nat) : R :=
  match w, obs with s :: w', o :: obs' => (lg P' P i s + lg E' E s o + plog s w' obs')%R | _, _ => 0%R end.
Lemma plog_counts : forall obs w i, length w = length obs -> i < n -> (forall s, In s w -> s < n) -> obs_ok k obs ->
  plog i w obs = (dsum n n (seen_moves (i :: w)) (lg P' P) + dsum n k (seen_symbols w obs) (lg E' E))%R.
Proof.
  induction obs as [|o obs IH]; intros w i Hl Hi Hw Ho; (destruct w as [|s w]; [|try discriminate]); try discriminate.
  - cbn [plog]. rewrite (dsum_ext n n _ (fun _ _ => 0q)) by reflexivity. rewrite (dsum_ext n k _ (fun _ _ => 0q)) by reflexivity. rewrite !dsum_0. lra.
  - cbn [plog]. assert (Hs : s < n) by (apply Hw; left; reflexivity).
    rewrite (IH w s); [|injection Hl; auto|exact Hs|intros; apply Hw; right; assumption|intros y Hy; apply Ho; right; exact Hy].
    rewrite (dsum_ext n n (seen_moves (i :: s :: w)) (fun u v => (if Nat.eqb i u && Nat.eqb s v then 1q else 0q) + seen_moves (s :: w) u v)%Qc) by (intros; apply seen_moves_cons).
    rewrite (dsum_ext n k (seen_symbols (s :: w) (o :: obs)) (fun u v => (if Nat.eqb s u && Nat.eqb o v then 1q else 0q) + seen_symbols w obs u v)%Qc) by (intros; apply seen_symbols_cons).
    rewrite !dsum_plus, !dsum_one; [lra|exact Hs|apply Ho; left; reflexivity|exact Hi|exact Hs].
Qed.

(** absolute continuity *)
Lemma mean_term : forall s f l, In s D -> In l (words n (S (length s))) -> (forall l', (0 <= f l')%Qc) ->
  (full_prob P E x s l * f l / likelihood n P E x s <= hidden_mean n P E x s f)%Qc.
Proof.
  intros s f l Hs Hl Hf. destruct (HD s Hs) as [Ho HL]. unfold hidden_mean, Qcdiv. apply Qcmult_le_compat_r; [|apply Qclt_le_weak, Qc_inv_pos, HL].
  apply (lsum_map_ge (fun l => full_prob P E x s l * f l)%Qc); [|exact Hl]. intros l' Hl'. apply Qc_mul_nonneg; [apply full_nonneg; assumption|apply Hf].
Qed.
Lemma occ_pos : forall m c t, t < m -> c t = true -> (0 < occurrences m c)%Qc.
Proof.
  intros m c t Ht Hc. unfold occurrences. apply Qclt_le_trans with 1q; [reflexivity|]. pose proof (sumn_term_le m (fun t => if c t then 1q else 0q) t Ht) as K.
  cbn beta in K. rewrite Hc in K. apply K. intros i _; destruct (c i); discriminate.
Qed.

Lemma mean_nonneg : forall s f, In s D -> (forall l', (0 <= f l')%Qc) -> (0 <= hidden_mean n P E x s f)%Qc.
Proof.
  intros s f Hs Hf. destruct (HD s Hs) as [Ho HL]. apply Qc_div_nonneg; [|exact HL]. apply lsum_nonneg. intros y Hy. apply in_map_iff in Hy. destruct Hy as (l & <- & Hl).
  apply Qc_mul_nonneg; [apply full_nonneg; assumption|apply Hf].
Qed.
Lemma mean_total_pos : forall s (f : list nat -> list nat -> Qc) l, In s D -> In l (words n (S (length s))) -> (forall s' l', (0 <= f s' l')%Qc) ->
  (0 < full_prob P E x s l)%Qc -> (0 < f s l)%Qc -> (0 < lsum (map (fun s' => hidden_mean n P E x s' (f s')) D))%Qc.
Proof.
  intros s f l Hs Hl Hf Hp Hfp. destruct (HD s Hs) as [Ho HL]. apply Qclt_le_trans with (hidden_mean n P E x s (f s)).
  - eapply Qclt_le_trans; [|apply (mean_term s (f s) l Hs Hl (Hf s))]. apply Qc_div_pos; [|exact HL]. apply Qc_mul_pos; assumption.
  - apply (lsum_map_ge (fun s' => hidden_mean n P E x s' (f s'))); [|exact Hs]. intros y Hy. apply mean_nonneg; [exact Hy|apply Hf].
Qed.
Lemma seen_moves_nonneg : forall l u v, (0 <= seen_moves l u v)%Qc. Proof. intros. apply occ_nonneg. Qed.
Lemma seen_symbols_nonneg : forall l o u v, (0 <= seen_symbols l o u v)%Qc. Proof. intros. apply occ_nonneg. Qed.

Lemma new_move_pos : forall s l t, In s D -> In l (words n (S (length s))) -> (0 < full_prob P E x s l)%Qc -> t < length s ->
  (0 < mget P' (nth t l 0%nat) (nth (S t) l 0%nat))%Qc.
Proof.
  intros s l t Hs Hl Hp Ht. pose proof (proj1 (in_words _ _ _) Hl) as [Ll Hi].
  assert (U : nth t l 0 < n) by (apply Hi, nth_In; lia). assert (V : nth (S t) l 0 < n) by (apply Hi, nth_In; lia).
  destruct (proj1 ST _ U) as [Sp Ev]. rewrite (Ev _ V). apply Qc_div_pos; [|exact Sp].
  apply (mean_total_pos s (fun _ l' => seen_moves l' (nth t l 0) (nth (S t) l 0)) l Hs Hl); [intros; apply seen_moves_nonneg|exact Hp|].
  unfold seen_moves. apply (occ_pos _ _ t); [lia|]. rewrite !Nat.eqb_refl. reflexivity.
Qed.
Lemma new_symbol_pos : forall s l t, In s D -> In l (words n (S (length s))) -> (0 < full_prob P E x s l)%Qc -> t < length s ->
  (0 < mget E' (nth (S t) l 0%nat) (nth t s 0%nat))%Qc.
Proof.
  intros s l t Hs Hl Hp Ht. pose proof (proj1 (in_words _ _ _) Hl) as [Ll Hi].
  assert (V : nth (S t) l 0 < n) by (apply Hi, nth_In; lia). assert (Y : nth t s 0 < k) by (apply (HD s Hs), nth_In; lia).
  destruct (proj2 ST _ V) as [Sp Ev]. rewrite (Ev _ Y). apply Qc_div_pos; [|exact Sp].
  apply (mean_total_pos s (fun s' l' => seen_symbols (tl l') s' (nth (S t) l 0) (nth t s 0)) l Hs Hl); [intros; apply seen_symbols_nonneg|exact Hp|].
  destruct l as [|i w]; [discriminate|]. cbn [tl]. unfold seen_symbols. apply (occ_pos _ _ t); [cbn in Ll; lia|]. cbn [nth]. rewrite !Nat.eqb_refl. reflexivity.
Qed.
Lemma joint_pos : forall P0 E0 obs w i, length w = length obs ->
  (forall t, t < length obs -> (0 < mget P0 (nth t (i :: w) 0%nat) (nth t w 0%nat))%Qc /\ (0 < mget E0 (nth t w 0%nat) (nth t obs 0%nat))%Qc) ->
  (0 < joint_from P0 E0 i w obs)%Qc.
Proof.
  intros P0 E0 obs; induction obs as [|o obs IH]; intros w i Hl H; (destruct w as [|s w]; [|try discriminate]); try discriminate; [reflexivity|].
  cbn [joint_from]. destruct (H 0 ltac:(cbn; lia)) as [A B]. cbn [nth] in A, B. apply Qc_mul_pos; [apply Qc_mul_pos; assumption|].
  apply IH; [injection Hl; auto|]. intros t Ht. apply (H (S t)). cbn. lia.
Qed.
Lemma full_pos' : forall s l, In s D -> In l (words n (S (length s))) -> (0 < full_prob P E x s l)%Qc -> (0 < full_prob P' E' x s l)%Qc.
Proof.
  intros s l Hs Hl Hp. pose proof (proj1 (in_words _ _ _) Hl) as [Ll Hi]. destruct l as [|i w]; [discriminate|]. cbn [full_prob]. apply Qc_mul_pos.
  - destruct (pos_or_0 (vget x i)) as [A|A]; [apply Hx; apply Hi; left; reflexivity|exact A|].
    cbn [full_prob] in Hp. rewrite A in Hp. exfalso. apply (Qclt_irr 0q). replace (0q) with (0 * joint_from P E i w s)%Qc at 2 by ring. exact Hp.
  - apply joint_pos; [injection Ll; auto|]. intros t Ht. split; [apply (new_move_pos s (i :: w) t Hs Hl Hp Ht)|apply (new_symbol_pos s (i :: w) t Hs Hl Hp Ht)].
Qed.
Lemma joint_from_log : forall obs w i, length w = length obs -> obs_ok k obs -> i < n -> (forall s, In s w -> s < n) ->
  (0 < joint_from P E i w obs)%Qc -> (0 < joint_from P' E' i w obs)%Qc ->
  (ln (Qc2R (joint_from P' E' i w obs)) - ln (Qc2R (joint_from P E i w obs)) = plog i w obs)%R.
Proof.
  assert (SP : forall a b, (0 <= a)%Qc -> (0 <= b)%Qc -> (0 < a * b)%Qc -> (0 < a)%Qc /\ (0 < b)%Qc).
  { intros a b Ha Hb H. split.
    - destruct (pos_or_0 a Ha) as [A| ->]; [exact A|]. replace (0 * b)%Qc with 0q in H by ring. exfalso. exact (Qclt_irr _ H).
    - destruct (pos_or_0 b Hb) as [A| ->]; [exact A|]. replace (a * 0)%Qc with 0q in H by ring. exfalso. exact (Qclt_irr _ H). }
  induction obs as [|o obs IH]; intros w i Hl Ho Hi Hw A B; (destruct w as [|s w]; [|try discriminate]); try discriminate; [cbn; lra|].
  cbn [joint_from plog] in *. assert (Hs : s < n) by (apply Hw; left; reflexivity). assert (Ok : o < k) by (apply Ho; left; reflexivity).
  assert (Ho' : obs_ok k obs) by (intros y Hy; apply Ho; right; exact Hy). assert (Hw' : forall y, In y w -> y < n) by (intros; apply Hw; right; assumption).
  pose proof (joint_from_nonneg n k P E HP HE obs Ho' w s Hs Hw') as J. pose proof (joint_from_nonneg n k P' E' (proj1 HM') (proj1 (proj2 HM')) obs Ho' w s Hs Hw') as J'.
  assert (N1 : (0 <= mget P i s)%Qc) by (apply HP; assumption). assert (N2 : (0 <= mget E s o)%Qc) by (apply HE; assumption).
  assert (N1' : (0 <= mget P' i s)%Qc) by (apply (proj1 HM'); assumption). assert (N2' : (0 <= mget E' s o)%Qc) by (apply (proj1 (proj2 HM')); assumption).
  destruct (SP _ _ (Qc_mul_nonneg _ _ N1 N2) J A) as [A1 A2]. destruct (SP _ _ N1 N2 A1) as [A3 A4].
  destruct (SP _ _ (Qc_mul_nonneg _ _ N1' N2') J' B) as [B1 B2]. destruct (SP _ _ N1' N2' B1) as [B3 B4].
  rewrite <- (IH w s) by (assumption || (injection Hl; auto)). unfold lg. rewrite !lnQ_mul by assumption. lra.
Qed.
Lemma full_log : forall s l, In s D -> In l (words n (S (length s))) -> (0 < full_prob P E x s l)%Qc ->
  (ln (Qc2R (full_prob P' E' x s l)) - ln (Qc2R (full_prob P E x s l)) =
   dsum n n (seen_moves l) (lg P' P) + dsum n k (seen_symbols (tl l) s) (lg E' E))%R.
Proof.
  intros s l Hs Hl Hp. pose proof (full_pos' s l Hs Hl Hp) as Hp'. pose proof (proj1 (in_words _ _ _) Hl) as [Ll Hi]. destruct l as [|i w]; [discriminate|].
  cbn [full_prob tl] in *. assert (I : i < n) by (apply Hi; left; reflexivity). assert (W : forall y, In y w -> y < n) by (intros; apply Hi; right; assumption).
  destruct (HD s Hs) as [Ho _]. injection Ll as Ll.
  assert (X : (0 < vget x i)%Qc).
  { destruct (pos_or_0 (vget x i)) as [A|A]; [apply Hx; exact I|exact A|]. rewrite A in Hp. exfalso. apply (Qclt_irr 0q). replace (0q) with (0 * joint_from P E i w s)%Qc at 2 by ring. exact Hp. }
  assert (C : forall b, (0 < vget x i * b)%Qc -> (0 < b)%Qc).
  { intros b Hb. apply Qcnot_le_lt. intros C. apply (Qclt_not_le _ _ Hb). qcnra. }
  rewrite !lnQ_mul by auto.
  rewrite <- (plog_counts s w i Ll I W Ho). rewrite <- (joint_from_log s w i) by auto. lra.
Qed.

(** Jensen, for one sequence *)
Lemma jensen : forall s, In s D ->
  (0 < likelihood n P' E' x s)%Qc /\
  (lR (words n (S (length s))) (fun l => Qc2R (full_prob P E x s l / likelihood n P E x s)%Qc * (dsum n n (seen_moves l) (lg P' P) + dsum n k (seen_symbols (tl l) s) (lg E' E)))
   <= ln (Qc2R (likelihood n P' E' x s)) - ln (Qc2R (likelihood n P E x s)))%R.
Proof.
  intros s Hs. destruct (HD s Hs) as [Ho HL]. set (L := likelihood n P E x s) in *. set (L' := likelihood n P' E' x s). set (W := words n (S (length s))).
  assert (TL : lsum (map (full_prob P E x s) W) = L) by apply full_total. assert (TL' : lsum (map (full_prob P' E' x s) W) = L') by apply full_total.
  assert (HL' : (0 < L')%Qc).
  { destruct (Exists_dec (fun l => (0 < full_prob P E x s l)%Qc) W) as [Ex|Ex]; [intros l; destruct (Qcltb 0 (full_prob P E x s l)) eqn:Eb; [left; apply Qcltb_lt; exact Eb|right; intros Q; apply Qcltb_lt in Q; congruence]|..].
    - apply Exists_exists in Ex. destruct Ex as (l & Hl & Hp). eapply Qclt_le_trans; [apply (full_pos' s l Hs Hl Hp)|]. rewrite <- TL'.
      apply lsum_map_ge; [|exact Hl]. intros; apply full_nonneg'; assumption.
    - exfalso. apply (Qclt_irr 0q). rewrite <- TL, lsum_map_0 in HL; [exact HL|]. intros l Hl. destruct (pos_or_0 (full_prob P E x s l)) as [A|A]; [apply full_nonneg; assumption| |exact A].
      exfalso. apply Ex. apply Exists_exists. exists l. split; assumption. }
  split; [exact HL'|]. pose proof (Qc2R_pos _ HL) as RL. pose proof (Qc2R_pos _ HL') as RL'.
  set (d := (ln (Qc2R L') - ln (Qc2R L))%R).
  assert (Q1 : (lR W (fun l => Qc2R (full_prob P E x s l / L)%Qc) = 1)%R).
  { rewrite (ls_ext W _ (fun l => / Qc2R L * Qc2R (full_prob P E x s l))%R) by (intros; rewrite Qc2R_div by (apply Qc_lt_neq; exact HL); unfold Rdiv; lra).
    rewrite ls_mul. replace (lR W (fun l => Qc2R (full_prob P E x s l))) with (Qc2R L). 1: field; lra.
    rewrite <- TL, Qc2R_lsum, map_map. reflexivity. }
  assert (Q2 : (lR W (fun l => Qc2R (full_prob P' E' x s l) / Qc2R L') = 1)%R).
  { unfold Rdiv. rewrite ls_mul_r. replace (lR W (fun l => Qc2R (full_prob P' E' x s l))) with (Qc2R L'). 1: field; lra.
    rewrite <- TL', Qc2R_lsum, map_map. reflexivity. }
  assert (K : (lR W (fun l => Qc2R (full_prob P E x s l / L)%Qc * (dsum n n (seen_moves l) (lg P' P) + dsum n k (seen_symbols (tl l) s) (lg E' E)) + - (d * Qc2R (full_prob P E x s l / L)%Qc))
     <= lR W (fun l => Qc2R (full_prob P' E' x s l) / Qc2R L' + - Qc2R (full_prob P E x s l / L)%Qc))%R).
  { apply ls_le. intros l Hl. rewrite Qc2R_div by (apply Qc_lt_neq; exact HL). pose proof (Qc2R_nonneg _ (full_nonneg' s l Ho Hl)) as F'.
    destruct (pos_or_0 _ (full_nonneg s l Ho Hl)) as [A|A].
    - rewrite <- (full_log s l Hs Hl A). pose proof (full_pos' s l Hs Hl A) as A'. pose proof (Qc2R_pos _ A) as RA. pose proof (Qc2R_pos _ A') as RA'.
      set (a := Qc2R (full_prob P E x s l)) in *. set (a' := Qc2R (full_prob P' E' x s l)) in *. unfold d.
      pose proof (ln_le_sub ((a' / Qc2R L') / (a / Qc2R L)) ltac:(apply Rdiv_lt_0_compat; apply Rdiv_lt_0_compat; assumption)) as I.
      rewrite (ln_quot (a' / Qc2R L') (a / Qc2R L)) in I by (apply Rdiv_lt_0_compat; assumption). rewrite (ln_quot a' (Qc2R L')), (ln_quot a (Qc2R L)) in I by assumption.
      assert (Qp : (0 < a / Qc2R L)%R) by (apply Rdiv_lt_0_compat; assumption).
      apply (Rmult_le_compat_l (a / Qc2R L)) in I; [|lra].
      replace (a / Qc2R L * (a' / Qc2R L' / (a / Qc2R L) - 1))%R with (a' / Qc2R L' - a / Qc2R L)%R in I by (field; lra). lra.
    - rewrite A, Qc2R_0. assert (0 <= Qc2R (full_prob P' E' x s l) / Qc2R L')%R by (apply Rmult_le_pos; [exact F'|apply Rlt_le, Rinv_0_lt_compat, RL']). unfold Rdiv in *. nra. }
  rewrite !ls_plus, !ls_opp, ls_mul, Q1, Q2 in K. fold d. lra.
Qed.

Lemma Qc2R_hidden : forall s f, In s D -> Qc2R (hidden_mean n P E x s f) = lR (words n (S (length s))) (fun l => Qc2R (full_prob P E x s l / likelihood n P E x s)%Qc * Qc2R (f l))%R.
Proof.
  intros s f Hs. destruct (HD s Hs) as [_ HL]. pose proof (Qc_lt_neq _ HL) as N. unfold hidden_mean. rewrite Qc2R_div by exact N. rewrite Qc2R_lsum, map_map. unfold Rdiv. rewrite <- ls_mul_r.
  apply ls_ext. intros l _. rewrite Qc2R_mul, Qc2R_div by exact N. unfold Rdiv. lra.
Qed.
Lemma hidden_dsum : forall s a b (c : list nat -> nat -> nat -> Qc) g, In s D ->
  lR (words n (S (length s))) (fun l => Qc2R (full_prob P E x s l / likelihood n P E x s)%Qc * dsum a b (c l) g)%R =
  dsum a b (fun u v => hidden_mean n P E x s (fun l => c l u v)) g.
Proof.
  intros s a b c g Hs. unfold dsum.
  rewrite (ls_ext (words n (S (length s))) _ (fun l => lR (seq 0 a) (fun u => lR (seq 0 b) (fun v => Qc2R (full_prob P E x s l / likelihood n P E x s)%Qc * Qc2R (c l u v) * g u v)))%R).
  2:{ intros l _. rewrite <- ls_mul. apply ls_ext. intros u _. rewrite <- ls_mul. apply ls_ext. intros v _. lra. }
  rewrite ls_swap. apply ls_ext. intros u _. rewrite ls_swap. apply ls_ext. intros v _. rewrite ls_mul_r. rewrite (Qc2R_hidden s _ Hs). reflexivity.
Qed.
Lemma seq_gain : forall s, In s D -> (0 < likelihood n P' E' x s)%Qc /\
  (dsum n n (mean_moves n P E x s) (lg P' P) + dsum n k (mean_symbols n P E x s) (lg E' E) <= ln (Qc2R (likelihood n P' E' x s)) - ln (Qc2R (likelihood n P E x s)))%R.
Proof.
  intros s Hs. destruct (jensen s Hs) as [A B]. split; [exact A|]. eapply Rle_trans; [|exact B]. apply Req_le.
  rewrite (ls_ext (words n (S (length s))) _ (fun l => Qc2R (full_prob P E x s l / likelihood n P E x s)%Qc * dsum n n (seen_moves l) (lg P' P) + Qc2R (full_prob P E x s l / likelihood n P E x s)%Qc * dsum n k (seen_symbols (tl l) s) (lg E' E))%R) by (intros; lra).
  rewrite ls_plus. rewrite (hidden_dsum s n n seen_moves (lg P' P) Hs), (hidden_dsum s n k (fun l => seen_symbols (tl l) s) (lg E' E) Hs). reflexivity.
Qed.
Lemma dsum_lsum : forall {A} a b (c : A -> nat -> nat -> Qc) g (l : list A), lR l (fun s => dsum a b (c s) g) = dsum a b (fun u v => lsum (map (fun s => c s u v) l)) g.
Proof.
  intros A a b c g l. induction l as [|s l IH].
  - rewrite (dsum_ext a b _ (fun _ _ => 0q)) by reflexivity. rewrite dsum_0. reflexivity.
  - cbn [map]. etransitivity; [|symmetry; apply (dsum_plus a b (c s) (fun u v => lsum (map (fun s => c s u v) l)))]. rewrite <- IH. reflexivity.
Qed.
Lemma firstn_S_nth : forall (d t : nat) s, t < length s -> firstn (S t) s = firstn t s ++ [nth t s d].
Proof.
  intros d t; induction t as [|t IH]; intros [|a s] H; cbn in H; try lia; [reflexivity|].
  rewrite firstn_cons. rewrite IH by lia. reflexivity.
Qed.
Lemma moves_zero : forall s u v, u < n -> v < n -> mget P u v = 0q -> mean_moves n P E x s u v = 0q.
Proof.
  intros s u v Hu Hv Z. rewrite mean_moves_eq by assumption. rewrite sumn_0; [unfold Qcdiv; ring|]. intros t _. rewrite Z. ring.
Qed.
Lemma symbols_zero : forall s u y, u < n -> y < k -> mget E u y = 0q -> mean_symbols n P E x s u y = 0q.
Proof.
  intros s u y Hu Hy Z. rewrite mean_symbols_eq by assumption. rewrite sumn_0; [unfold Qcdiv; ring|]. intros t Ht. destruct (Nat.eqb_spec (nth t s 0) y) as [Ey|]; [|reflexivity].
  rewrite (firstn_S_nth 0 t s Ht). rewrite alpha_snoc. unfold stepf. rewrite Ey, Z. ring.
Qed.
Lemma total_gain_nonneg :
  (0 <= dsum n n (fun u v => lsum (map (fun s => mean_moves n P E x s u v) D)) (lg P' P) + dsum n k (fun u v => lsum (map (fun s => mean_symbols n P E x s u v) D)) (lg E' E))%R.
Proof.
  apply Rplus_le_le_0_compat; unfold dsum; apply ls_nonneg; intros u Hu; apply in_seq in Hu.
  - destruct (proj1 ST u ltac:(lia)) as [Sp Ev].
    rewrite (ls_ext (seq 0 n) _ (fun v => Qc2R (lsum (map (fun s => mean_moves n P E x s u v) D)) * (ln (Qc2R (lsum (map (fun s => mean_moves n P E x s u v) D) / sumn n (fun v => lsum (map (fun s => mean_moves n P E x s u v) D)))%Qc) - ln (Qc2R (mget P u v))))%R).
    2:{ intros v Hv. apply in_seq in Hv. unfold lg. rewrite Ev by lia. reflexivity. }
    apply (gibbs n (fun v => lsum (map (fun s => mean_moves n P E x s u v) D)) (mget P u)).
    + intros v Hv. apply lsum_nonneg. intros y Hy. apply in_map_iff in Hy. destruct Hy as (s & <- & Hs). apply mean_nonneg; [exact Hs|]. intros; apply seen_moves_nonneg.
    + intros v Hv. apply HP; lia.
    + apply HP. lia.
    + exact Sp.
    + intros v Hv Z. apply lsum_map_0. intros s _. apply moves_zero; try assumption; lia.
  - destruct (proj2 ST u ltac:(lia)) as [Sp Ev].
    rewrite (ls_ext (seq 0 k) _ (fun v => Qc2R (lsum (map (fun s => mean_symbols n P E x s u v) D)) * (ln (Qc2R (lsum (map (fun s => mean_symbols n P E x s u v) D) / sumn k (fun v => lsum (map (fun s => mean_symbols n P E x s u v) D)))%Qc) - ln (Qc2R (mget E u v))))%R).
    2:{ intros v Hv. apply in_seq in Hv. unfold lg. rewrite Ev by lia. reflexivity. }
    apply (gibbs k (fun v => lsum (map (fun s => mean_symbols n P E x s u v) D)) (mget E u)).
    + intros v Hv. apply lsum_nonneg. intros y Hy. apply in_map_iff in Hy. destruct Hy as (s & <- & Hs). apply mean_nonneg; [exact Hs|]. intros; apply seen_symbols_nonneg.
    + intros v Hv. apply HE; lia.
    + apply HE. lia.
    + exact Sp.
    + intros v Hv Z. apply lsum_map_0. intros s _. apply symbols_zero; try assumption; lia.
Qed.
Lemma prod_ln : forall (f : list nat -> Qc) l, (forall s, In s l -> (0 < f s)%Qc) -> (0 < prod_list (map f l))%Qc /\ (ln (Qc2R (prod_list (map f l))) = lR l (fun s => ln (Qc2R (f s))))%R.
Proof.
  intros f l; induction l as [|s l IH]; intros H.
  - split; [reflexivity|]. cbn. rewrite Qc2R_1. apply ln_1.
  - destruct (IH (fun y Hy => H y (or_intror Hy))) as [A B]. pose proof (H s (or_introl eq_refl)) as Hs. unfold prod_list in *. cbn [map fold_right]. split; [apply Qc_mul_pos; assumption|].
    rewrite lnQ_mul by assumption. rewrite B. reflexivity.
Qed.
Lemma em_increases : (0 < total_likelihood n P E x D)%Qc /\ (total_likelihood n P E x D <= total_likelihood n P' E' x D)%Qc.
Proof.
  unfold total_likelihood. destruct (prod_ln (likelihood n P E x) D (fun s Hs => proj2 (HD s Hs))) as [A1 A2].
  destruct (prod_ln (likelihood n P' E' x) D (fun s Hs => proj1 (seq_gain s Hs))) as [B1 B2]. split; [exact A1|].
  assert (K : (ln (Qc2R (prod_list (map (likelihood n P E x) D))) <= ln (Qc2R (prod_list (map (likelihood n P' E' x) D))))%R).
  { rewrite A2, B2. pose proof total_gain_nonneg as G. rewrite <- !dsum_lsum, <- ls_plus in G.
    pose proof (ls_le D _ _ (fun s Hs => proj2 (seq_gain s Hs))) as L.
    rewrite (ls_ext D (fun s => ln (Qc2R (likelihood n P' E' x s)) - ln (Qc2R (likelihood n P E x s)))%R (fun s => ln (Qc2R (likelihood n P' E' x s)) + - ln (Qc2R (likelihood n P E x s)))%R) in L by (intros; lra).
    rewrite (ls_plus D (fun s => ln (Qc2R (likelihood n P' E' x s)))) in L. rewrite ls_opp in L. lra. }
  apply Qcnot_lt_le. intros C. apply Qc2R_lt in C. pose proof (ln_increasing _ _ (Qc2R_pos _ B1) C). lra.
Qed.
End EM.
