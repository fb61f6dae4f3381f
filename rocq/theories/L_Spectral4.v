(** L_Spectral4: implied timescales; the growth of the number of paths; entropies. *)
From Verif Require Import M_Spectral S_Spectral L_Spectral L_Spectral2 L_Spectral3 L_Struct3 L_Ergodic L_Simulation L_Gen3 L_Measures2 L_Entropy L_Props.
From Coq Require Import Reals Qreals Lra Psatz Permutation Sorted.
Close Scope Q_scope. Close Scope R_scope.
Open Scope nat_scope.
Open Scope res_scope.

(** ** implied timescales *)
Lemma SS_snoc l x : StronglySorted Rge l -> (forall y, In y l -> (y >= x)%R) -> StronglySorted Rge (l ++ [x]).
Proof.
  induction 1 as [|y r H IH F]; intros G; cbn [app]; [repeat constructor|]. constructor; [apply IH; intros; apply G; right; assumption|].
  apply Forall_app. split; [exact F|]. constructor; [apply G; left; reflexivity|constructor].
Qed.
Lemma SS_rev l : StronglySorted Rle l -> StronglySorted Rge (rev l).
Proof.
  induction 1 as [|y r H IH F]; cbn [rev]; [constructor|]. apply SS_snoc; [exact IH|]. intros z Hz. apply in_rev in Hz. rewrite Forall_forall in F. apply Rle_ge, F, Hz.
Qed.
Lemma SS_inv a l : StronglySorted Rge (a :: l) -> StronglySorted Rge l /\ forall x, In x l -> (a >= x)%R.
Proof. intros H. inversion H as [|? ? H1 H2]; subst. rewrite Forall_forall in H2. auto. Qed.
Lemma timescale_ok x : (0 <= x < 1)%R -> is_timescale x (timescale x).
Proof.
  intros H. unfold timescale. destruct (Req_EM_T x 0) as [E|N].
  - split; [reflexivity|lra].
  - split; [contradiction|]. intros Px. destruct (Req_EM_T x 1); [lra|].
    assert (Ln : (ln x < 0)%R) by (rewrite <- ln_1; apply ln_increasing; lra).
    exists (- (1) / ln x)%R. split; [reflexivity|]. split.
    + replace (- (1) / ln x)%R with (/ (- ln x))%R by (field; lra). apply Rinv_0_lt_compat. lra.
    + replace (- (1 / (- (1) / ln x)))%R with (ln x) by (field; lra). apply exp_ln. lra.
Qed.
Lemma timescales_value n m ev : env_ok n m -> ergodic n (en_p m) -> spectrum n (cmat_of (en_p m)) ev ->
  exists pi s mu ts, distribution n pi /\ stationary n (en_p m) pi /\ decay_rate n (en_p m) pi s /\
    Permutation (map cmod ev) (1%R :: s :: mu) /\ StronglySorted Rge (s :: mu) /\ (s < 1)%R /\
    implied_timescales m ev = Ok (Some (Finf :: ts)) /\ Forall2 is_timescale (s :: mu) ts.
Proof.
  intros Hm Er Sv. pose proof Hm as (Hn & St & _). destruct (ergodic_pi n m Hm (proj1 Er)) as (pi & E0 & D & S0 & Pp & _).
  destruct (second_rate n (en_p m) pi ev Hn St Er D S0 Sv) as (s & Se & Dr). pose proof (second_le1 ev s Se) as Le.
  destruct Se as (i0 & i1 & H0 & H1 & N & Ei0 & Ei1 & L & M).
  destruct (nth_split ev zeroC H0) as (l1 & l2 & Ev & Len). rewrite Ei0 in Ev.
  set (oth := map cmod (l1 ++ l2)).
  assert (P1 : Permutation (map cmod ev) (1%R :: oth)).
  { rewrite Ev, map_app. cbn [map]. rewrite cmod_1. unfold oth. rewrite map_app. apply Permutation_sym, Permutation_middle. }
  pose proof (rsort_perm (map cmod ev)) as Pm. pose proof (SS_rev _ (rsort_sorted (map cmod ev))) as So.
  assert (P2 : Permutation (1%R :: oth) (rev (rsort (map cmod ev)))).
  { eapply perm_trans; [apply Permutation_sym, P1|]. eapply perm_trans; [exact Pm|]. apply Permutation_rev. }
  assert (Bo : forall y, In y oth -> (0 <= y <= s)%R).
  { intros y Hy. apply in_map_iff in Hy. destruct Hy as (z & <- & Hz). split; [apply cmod_nonneg|].
    assert (X : exists i, i < length ev /\ i <> i0 /\ nth i ev zeroC = z).
    { apply in_app_or in Hz. destruct Hz as [Hz|Hz]; destruct (In_nth _ z zeroC Hz) as (j & Hj & Ej).
      - exists j. rewrite Ev, app_length. cbn [length]. split; [lia|]. split; [lia|]. rewrite app_nth1 by exact Hj. exact Ej.
      - exists (length l1 + S j). rewrite Ev, app_length. cbn [length]. split; [lia|]. split; [lia|]. rewrite app_nth2 by lia. replace (length l1 + S j - length l1) with (S j) by lia. exact Ej. }
    destruct X as (i & Hi & Ni & <-). apply M; assumption. }
  assert (Is : In s oth).
  { unfold oth. rewrite <- Ei1. apply in_map. rewrite Ev in H1. rewrite app_length in H1. cbn [length] in H1. rewrite Ev. apply in_or_app. destruct (Nat.lt_ge_cases i1 (length l1)) as [Q|Q].
    - left. rewrite app_nth1 by exact Q. apply nth_In, Q.
    - right. rewrite app_nth2 by exact Q. destruct (i1 - length l1) as [|d] eqn:Ed; [lia|]. cbn [nth]. apply nth_In. lia. }
  unfold eigenvalues_sorted, implied_timescales. rewrite (ergodic_run n m Hm Er). cbn [bind negb]. unfold eigenvalues_sorted.
  destruct (rev (rsort (map cmod ev))) as [|a mu] eqn:Rv; [apply Permutation_sym, Permutation_nil in P2; discriminate|].
  destruct (SS_inv _ _ So) as [So1 So2].
  assert (Ea : a = 1%R).
  { assert (I : In a (1%R :: oth)) by (apply (Permutation_in _ (Permutation_sym P2)); left; reflexivity).
    assert (J : In 1%R (a :: mu)) by (apply (Permutation_in _ P2); left; reflexivity).
    destruct J as [J|J]; [exact J|]. apply So2 in J. destruct I as [I|I]; [auto|]. apply Bo in I. lra. }
  subst a. apply Permutation_cons_inv in P2.
  destruct mu as [|b mu]; [apply Permutation_sym, Permutation_nil in P2; rewrite P2 in Is; destruct Is|].
  destruct (SS_inv _ _ So1) as [So3 So4].
  assert (Eb : b = s).
  { assert (I : In b oth) by (apply (Permutation_in _ (Permutation_sym P2)); left; reflexivity).
    apply (Permutation_in _ P2) in Is. apply Bo in I. destruct Is as [J|J]; [exact J|]. apply So4 in J. lra. }
  subst b.
  exists pi, s, mu, (map timescale (s :: mu)). split; [exact D|]. split; [exact S0|]. split; [exact Dr|].
  split; [eapply perm_trans; [exact P1|]; apply perm_skip, P2|]. split; [exact So1|]. split; [exact L|]. split; [reflexivity|].
  assert (Ball : forall y, In y (s :: mu) -> (0 <= y < 1)%R).
  { intros y Hy. apply (Permutation_in _ (Permutation_sym P2)) in Hy. apply Bo in Hy. lra. }
  clear -Ball. induction (s :: mu) as [|y r IH]; cbn [map]; constructor; [apply timescale_ok, Ball; left; reflexivity|apply IH; intros; apply Ball; right; assumption].
Qed.

(** ** the number of paths *)
Definition cn (n : nat) (P : mat) (k i : nat) : nat := length (filter (fun w => possible P (i :: w)) (S_Chain.words n k)).
Lemma filter_flat (p : list nat -> bool) W l : INR (length (filter p (flat_map (fun x => map (cons x) W) l))) = lsumR (map (fun x => INR (length (filter (fun w => p (x :: w)) W))) l).
Proof.
  induction l as [|a l IH]; [reflexivity|]. cbn [flat_map map lsumR fold_right]. rewrite filter_app, app_length, plus_INR. unfold lsumR in IH. rewrite IH. f_equal. f_equal.
  clear. induction W as [|w W IH]; [reflexivity|]. cbn [map filter]. destruct (p (a :: w)); cbn [length]; rewrite IH; reflexivity.
Qed.
Lemma lsumR_rsm n f : lsumR (map f (seq 0 n)) = rsm n f.
Proof.
  induction n; [reflexivity|]. rewrite seq_S, map_app. cbn [map rsm]. rewrite <- IHn. unfold lsumR. generalize (map f (seq 0 n)). intros l. induction l as [|a l IH]; cbn [app fold_right]; [cbn; ring|rewrite IH; ring].
Qed.
Lemma paths_S n P k : INR (paths n P (S k)) = rsm n (fun i => INR (cn n P k i)).
Proof. unfold paths. cbn [S_Chain.words]. rewrite filter_flat, lsumR_rsm. reflexivity. Qed.
Lemma cn_S n P k i : INR (cn n P (S k) i) = rsm n (fun j => if Qcltb 0 (mget P i j) then INR (cn n P k j) else 0%R).
Proof.
  unfold cn. cbn [S_Chain.words]. rewrite filter_flat, lsumR_rsm. apply rsm_ext. intros j _.
  change (fun w => possible P (i :: j :: w)) with (fun w => Qcltb 0 (mget P i j) && possible P (j :: w)).
  destruct (Qcltb 0 (mget P i j)); cbn [andb]; [reflexivity|]. replace (filter (fun _ => false) (S_Chain.words n k)) with (@nil (list nat)); [reflexivity|].
  induction (S_Chain.words n k) as [|w W IH]; [reflexivity|exact IH].
Qed.
Fixpoint wcount (n : nat) (P : mat) (k i j : nat) : R :=
  match k with O => if Nat.eqb i j then 1%R else 0%R | S k' => rsm n (fun l => if Qcltb 0 (mget P i l) then wcount n P k' l j else 0%R) end.
Lemma wcount_nonneg n P k i j : (0 <= wcount n P k i j)%R.
Proof. revert i j. induction k; intros i j; cbn [wcount]; [destruct (Nat.eqb i j); lra|]. apply rsm_nonneg. intros l _. destruct (Qcltb _ _); [apply IHk|lra]. Qed.
Lemma wcount_pow n P k i j : cmpow n (marks P) k i j = RtoC (wcount n P k i j).
Proof.
  revert i j. induction k; intros i j; cbn [cmpow wcount]; [unfold cid; destruct (Nat.eqb i j); reflexivity|].
  rewrite <- csum_R. unfold cmm. apply csum_ext. intros l _. rewrite IHk. unfold marks. destruct (Qcltb _ _); apply cx_eq; cbn; ring.
Qed.
Lemma wcount_cn n P k i : i < n -> rsm n (fun j => wcount n P k i j) = INR (cn n P k i).
Proof.
  revert i. induction k; intros i Hi.
  - cbn [wcount]. rewrite (rsm_single n _ i Hi); [rewrite Nat.eqb_refl; reflexivity|]. intros j _ N. destruct (Nat.eqb_spec i j); [congruence|reflexivity].
  - rewrite cn_S. cbn [wcount]. rewrite rsm_swap. apply rsm_ext. intros l Hl. destruct (Qcltb _ _); [apply IHk, Hl|]. rewrite rsm_const. ring.
Qed.
Lemma cn_pos n P k i : stochastic n P -> i < n -> (1 <= INR (cn n P k i))%R.
Proof.
  intros St. revert i. induction k; intros i Hi; [cbn; lra|]. rewrite cn_S.
  destruct (stochastic_total n P St i Hi) as (j & Hj & Pj).
  eapply Rle_trans; [|apply (rsm_term n _ j); [|exact Hj]].
  - cbn beta. apply Qcltb_lt in Pj. rewrite Pj. apply IHk, Hj.
  - intros l _. destruct (Qcltb _ _); [apply pos_INR|lra].
Qed.
Lemma cn_le n P k i : (INR (cn n P k i) <= INR n ^ k)%R.
Proof.
  revert i. induction k; intros i; [cbn; lra|]. rewrite cn_S. cbn [pow]. rewrite <- rsm_const. apply rsm_le. intros l _.
  destruct (Qcltb _ _); [apply IHk|apply pow_le, pos_INR].
Qed.
Lemma growth_pow n P rho : (0 < rho)%R -> pow_bound n (marks P) rho -> growth_bound n P rho.
Proof.
  intros Hr (c & Hc). exists (Rmax 1 (INR n * (INR n * (c / rho)))). intros [|k].
  - cbn. pose proof (Rmax_l 1 (INR n * (INR n * (c / rho)))). lra.
  - rewrite paths_S. rewrite (rsm_ext n _ (fun i => rsm n (fun j => wcount n P k i j))) by (intros; rewrite wcount_cn; auto).
    eapply Rle_trans; [apply (rsm_le n _ (fun _ => INR n * (c * rho ^ k))%R)|].
    + intros i Hi. rewrite <- rsm_const. apply rsm_le. intros j Hj. specialize (Hc k i j Hi Hj). rewrite wcount_pow, cmod_R, Rabs_pos_eq in Hc by apply wcount_nonneg. exact Hc.
    + rewrite rsm_const. replace (INR n * (INR n * (c * rho ^ k)))%R with ((INR n * (INR n * (c / rho))) * rho ^ S k)%R by (cbn [pow]; field; lra).
      apply Rmult_le_compat_r; [apply pow_le; lra|apply Rmax_r].
Qed.
Lemma pow_growth n P rho : (0 <= rho)%R -> growth_bound n P rho -> pow_bound n (marks P) rho.
Proof.
  intros Hr (c & Hc). exists (c * rho)%R. intros k i j Hi Hj. specialize (Hc (S k)). rewrite paths_S in Hc. cbn [pow] in Hc. rewrite Rmult_assoc.
  eapply Rle_trans; [|exact Hc]. rewrite wcount_pow, cmod_R, Rabs_pos_eq by apply wcount_nonneg.
  eapply Rle_trans; [|apply (rsm_term n (fun i => INR (cn n P k i)) i); [intros; apply pos_INR|exact Hi]]. cbn beta. rewrite <- wcount_cn by exact Hi.
  apply (rsm_term n (fun j => wcount n P k i j)); [intros; apply wcount_nonneg|exact Hj].
Qed.
Lemma growth_range n P r : 0 < n -> stochastic n P -> growth_rate n P r -> (1 <= r <= INR n)%R.
Proof.
  intros Hn St (R0 & R1 & R2). split.
  - destruct (Rle_lt_dec 1 r) as [L|L]; [exact L|exfalso]. destruct (R1 ((r + 1) / 2)%R ltac:(lra)) as (c & Hc). set (q := ((r + 1) / 2)%R) in *.
    assert (B : forall k, (1 <= c * q ^ S k)%R).
    { intros k. eapply Rle_trans; [|apply Hc]. rewrite paths_S. eapply Rle_trans; [apply (cn_pos n P k 0 St Hn)|]. apply (rsm_term n (fun i => INR (cn n P k i))); [intros; apply pos_INR|exact Hn]. }
    assert (1 <= q)%R; [|unfold q in *; lra].
    apply (pow_le_geom 1 (Rmax c 1) q); [lra|unfold q; lra|]. intros [|k]; [cbn; pose proof (Rmax_r c 1); lra|]. rewrite pow1. eapply Rle_trans; [apply (B k)|].
    apply Rmult_le_compat_r; [apply pow_le; unfold q; lra|apply Rmax_l].
  - apply R2; [apply pos_INR|]. exists 1%R. intros [|k]; [cbn; lra|]. rewrite paths_S, Rmult_1_l. cbn [pow]. rewrite <- rsm_const. apply rsm_le. intros i _. apply cn_le.
Qed.
Lemma topological_value n P ev : 0 < n -> stochastic n P -> spectrum n (marks P) ev ->
  exists r, growth_rate n P r /\ (1 <= r <= INR n)%R /\ topological_entropy ev = Ok (ln r) /\
    exists x l, eigenvalues_sorted ev = x :: l /\ last l x = r.
Proof.
  intros Hn St Sv. assert (Ne : ev <> []) by (intros E; subst ev; destruct Sv as [L _]; cbn in L; lia).
  destruct (sorted_max ev Ne) as (x & l & Es & (z & Hz & Ez) & Mx). set (r := last l x) in *.
  assert (G : growth_rate n P r).
  { assert (R0 : (0 <= r)%R) by (rewrite <- Ez; apply cmod_nonneg). split; [exact R0|]. split.
    - intros rho Hr. apply growth_pow; [lra|]. apply (spectral_radius n _ ev r Sv R0 Mx rho Hr).
    - intros rho Hr B. rewrite <- Ez. apply (spectral_radius_lower n _ ev rho Sv Hr); [apply pow_growth; assumption|exact Hz]. }
  pose proof (growth_range n P r Hn St G) as Rg. exists r. split; [exact G|]. split; [exact Rg|]. split.
  - unfold topological_entropy. rewrite Es. fold r. destruct (Req_EM_T r 0); [lra|reflexivity].
  - exists x, l. auto.
Qed.

Lemma topological_prop n P ev : 0 < n -> stochastic n P -> spectrum n (marks P) ev ->
  exists r, growth_rate n P r /\ (1 <= r <= INR n)%R /\ topological_entropy ev = Ok (ln r).
Proof. intros Hn St Sv. destruct (topological_value n P ev Hn St Sv) as (r & A & B & C & _). exists r. auto. Qed.

(** ** entropy and the number of paths *)
Lemma gibbs_count {A} (L : list A) (p : A -> Qc) (sel : A -> bool) : (forall x, In x L -> (0 <= p x)%Qc) -> lsum (map p L) = 1q ->
  (forall x, In x L -> (0 < p x)%Qc -> sel x = true) ->
  (- lsumR (map (fun x => xlogx (p x)) L) <= ln (INR (length (filter sel L))))%R.
Proof.
  intros Hp Hs Hsel. set (N := INR (length (filter sel L))).
  assert (Ex : exists x, In x L /\ (0 < p x)%Qc).
  { destruct (existsb (fun x => Qcltb 0 (p x)) L) eqn:E; [apply existsb_exists in E; destruct E as (x & H1 & H2); exists x; split; [exact H1|apply Qcltb_lt, H2]|].
    exfalso. assert (Z : lsum (map p L) = 0q).
    { apply lsum_map_0. intros x Hx. destruct (Qcltb 0 (p x)) eqn:F; [exfalso; rewrite (proj2 (existsb_exists (fun x => Qcltb 0 (p x)) L)) in E by (exists x; auto); discriminate|].
      destruct (Qcltb_spec 0 (p x)); [discriminate|]. apply Qcle_antisym; [assumption|apply Hp, Hx]. }
    rewrite Z in Hs. apply (f_equal Qc2R) in Hs. rewrite Qc2R_0, Qc2R_1 in Hs. lra. }
  assert (N1 : (0 < N)%R).
  { destruct Ex as (x & Hx & Px). unfold N. apply lt_0_INR. assert (I : In x (filter sel L)) by (apply filter_In; auto). destruct (filter sel L); [destruct I|cbn; lia]. }
  assert (Pt : forall x, In x L -> (- xlogx (p x) - Qc2R (p x) * ln N <= (if sel x then / N else 0) - Qc2R (p x))%R).
  { intros x Hx. destruct (Qcltb 0 (p x)) eqn:Ep.
    - apply Qcltb_lt in Ep. rewrite (Hsel x Hx Ep), xlogx_pos by exact Ep. apply Qc2R_pos in Ep. set (q := Qc2R (p x)) in *.
      assert (K : (ln (/ (q * N)) <= / (q * N) - 1)%R) by (apply ln_le_sub, Rinv_0_lt_compat, Rmult_lt_0_compat; assumption).
      assert (PqN : (0 < q * N)%R) by (apply Rmult_lt_0_compat; assumption). rewrite ln_Rinv in K by exact PqN. rewrite ln_mult in K by assumption.
      apply (Rmult_le_compat_l q) in K; [|lra]. replace (q * (/ (q * N) - 1))%R with (/ N - q)%R in K by (field; lra). lra.
    - assert (Z : p x = 0q). { destruct (Qcltb_spec 0 (p x)); [discriminate|]. apply Qcle_antisym; [assumption|apply Hp, Hx]. }
      rewrite Z, xlogx_0, Qc2R_0. pose proof (Rinv_0_lt_compat N N1). destruct (sel x); lra. }
  assert (Sm : (lsumR (map (fun x => - xlogx (p x) - Qc2R (p x) * ln N)%R L) <= lsumR (map (fun x => (if sel x then / N else 0) - Qc2R (p x))%R L))%R) by (apply ls_le; exact Pt).
  assert (S1 : lsumR (map (fun x => Qc2R (p x)) L) = 1%R) by (rewrite <- (map_map p Qc2R), <- Qc2R_lsum, Hs; apply Qc2R_1).
  assert (A1 : lsumR (map (fun x => - xlogx (p x) - Qc2R (p x) * ln N)%R L) = (- lsumR (map (fun x => xlogx (p x)) L) - ln N)%R).
  { rewrite (ls_ext L _ (fun x => - xlogx (p x) + Qc2R (p x) * (- ln N))%R) by (intros; lra). rewrite ls_plus, ls_opp, ls_mul_r, S1. lra. }
  assert (A2 : lsumR (map (fun x => (if sel x then / N else 0) - Qc2R (p x))%R L) = 0%R).
  { rewrite (ls_ext L _ (fun x => (if sel x then / N else 0) + - Qc2R (p x))%R) by (intros; lra). rewrite ls_plus, ls_opp, S1.
    assert (C : lsumR (map (fun x => if sel x then (/ N)%R else 0%R) L) = (N * / N)%R).
    { unfold N at 2. generalize (/ N)%R. intros v. clear. induction L as [|a L IH]; [cbn; ring|]. cbn [map filter lsumR fold_right]. unfold lsumR in IH. rewrite IH.
      destruct (sel a); [cbn [length]; rewrite S_INR; ring|ring]. }
    rewrite C, Rinv_r by lra. lra. }
  lra.
Qed.
Lemma seq_possible n P pi l : stochastic n P -> distribution n pi -> (forall x, In x l -> x < n) -> (0 < seq_prob P pi l)%Qc -> possible P l = true.
Proof.
  intros St D. destruct l as [|i w]; [reflexivity|]. intros H. cbn [seq_prob]. intros Q.
  assert (Q2 : (0 < path_prob P i w)%Qc).
  { assert (K : (0 <= path_prob P i w)%Qc) by (apply (path_nonneg n P St); [apply H; left; reflexivity|intros; apply H; right; assumption]).
    destruct (Qcle_lt_or_eq _ _ K) as [|E]; [assumption|]. rewrite <- E in Q. replace (vget pi i * 0)%Qc with 0q in Q by ring. exfalso. apply (Qclt_not_eq _ _ Q). reflexivity. }
  clear Q D. revert i H Q2. induction w as [|j w IH]; intros i H Q2; [reflexivity|]. cbn [path_prob] in Q2.
  change (possible P (i :: j :: w)) with (Qcltb 0 (mget P i j) && possible P (j :: w)).
  assert (Hi : i < n) by (apply H; left; reflexivity). assert (Hj : j < n) by (apply H; right; left; reflexivity).
  assert (K1 : (0 <= mget P i j)%Qc) by (apply (proj1 (proj2 St)); assumption).
  assert (K2 : (0 <= path_prob P j w)%Qc) by (apply (path_nonneg n P St); [exact Hj|intros; apply H; right; right; assumption]).
  destruct (Qcle_lt_or_eq _ _ K1) as [L1|E1]; [|rewrite <- E1 in Q2; exfalso; replace (0 * path_prob P j w)%Qc with 0q in Q2 by ring; apply (Qclt_not_eq _ _ Q2); reflexivity].
  destruct (Qcle_lt_or_eq _ _ K2) as [L2|E2]; [|rewrite <- E2 in Q2; exfalso; replace (mget P i j * 0)%Qc with 0q in Q2 by ring; apply (Qclt_not_eq _ _ Q2); reflexivity].
  rewrite (proj2 (Qcltb_lt _ _) L1). cbn [andb]. apply IH; [intros x Hx; apply H; right; exact Hx|exact L2].
Qed.

Lemma block_paths n P pi k : stochastic n P -> distribution n pi -> (block_entropy n P pi (S k) <= ln (INR (paths n P (S k))))%R.
Proof.
  intros St D. unfold block_entropy, paths. apply gibbs_count.
  - intros l Hl. assert (R : forall x, In x l -> x < n) by (intros x Hx; eapply words_lt; eassumption).
    destruct l as [|i w]; [cbn; qclra|]. cbn [seq_prob]. apply Qc_mul_nonneg; [apply (proj1 (proj2 D)), R; left; reflexivity|].
    apply (path_nonneg n P St); [apply R; left; reflexivity|intros; apply R; right; assumption].
  - cbn [S_Chain.words]. rewrite lsum_flat_map. rewrite <- (proj2 (proj2 D)), <- lsum_tab. unfold tab. apply lsum_map_ext. intros i Hi. apply in_seq in Hi.
    rewrite map_map. cbn [seq_prob]. rewrite (lsum_map_mul_l (path_prob P i) (vget pi i)), (path_total n P St) by lia. ring.
  - intros l Hl Q. apply (seq_possible n P pi l St D); [intros x Hx; eapply words_lt; eassumption|exact Q].
Qed.
Lemma nat_above x : exists N, (x < INR N)%R.
Proof.
  exists (Z.to_nat (Z.max 0 (up x))). rewrite INR_IZR_INZ, Z2Nat.id by lia. destruct (archimed x) as [A _]. eapply Rlt_le_trans; [apply A|]. apply IZR_le. lia.
Qed.
Lemma linear_bound a b : (forall k, (INR k * a <= b)%R) -> (a <= 0)%R.
Proof.
  intros H. destruct (Rle_lt_dec a 0) as [L|L]; [exact L|exfalso]. destruct (nat_above (b / a)) as (N & HN). specialize (H N).
  apply (Rmult_lt_compat_r a) in HN; [|exact L]. unfold Rdiv in HN. rewrite Rmult_assoc, Rinv_l in HN by lra. lra.
Qed.
Lemma erate_growth n P pi r : 0 < n -> stochastic n P -> distribution n pi -> stationary n P pi -> growth_rate n P r -> (erate n P pi <= ln r)%R.
Proof.
  intros Hn St D S0 G. pose proof (growth_range n P r Hn St G) as Rg. destruct G as (_ & G1 & _). set (h := erate n P pi).
  assert (Lin : forall k, block_entropy n P pi (S k) = (block_entropy n P pi 1 + INR k * h)%R).
  { induction k as [|k IH]; [cbn [INR]; ring|]. pose proof (erate_step n P pi St D S0 k) as E. fold h in E. rewrite S_INR. lra. }
  assert (B : forall rho, (r < rho)%R -> (h <= ln rho)%R).
  { intros rho Hr. destruct (G1 rho Hr) as (c & Hc). 
    assert (Pos : forall k, (0 < INR (paths n P (S k)))%R).
    { intros k. rewrite paths_S. eapply Rlt_le_trans; [|apply (rsm_term n (fun i => INR (cn n P k i)) 0); [intros; apply pos_INR|exact Hn]]. pose proof (cn_pos n P k 0 St Hn). lra. }
    assert (Pc : (0 < c)%R). { specialize (Hc 1). specialize (Pos 0). cbn [pow] in Hc. nra. }
    enough (h - ln rho <= 0)%R by lra. apply (linear_bound _ (ln c + ln rho - block_entropy n P pi 1)). intros k.
    pose proof (block_paths n P pi k St D) as Bk. rewrite Lin in Bk. specialize (Hc (S k)).
    assert (Lk : (ln (INR (paths n P (S k))) <= ln c + INR (S k) * ln rho)%R).
    { rewrite <- ln_pow by lra. rewrite <- ln_mult by (try apply pow_lt; lra). destruct Hc as [Hc|Hc]; [left; apply ln_increasing; [apply Pos|exact Hc]|rewrite Hc; lra]. }
    rewrite S_INR in Lk. lra. }
  destruct (Rle_lt_dec h (ln r)) as [L|L]; [exact L|exfalso].
  assert (E1 : (r < exp h)%R) by (rewrite <- (exp_ln r) by lra; apply exp_increasing, L).
  specialize (B ((r + exp h) / 2)%R ltac:(lra)). assert (E2 : (exp h <= (r + exp h) / 2)%R).
  { rewrite <- (exp_ln ((r + exp h) / 2)) by lra. destruct B as [B|B]; [left; apply exp_increasing, B|rewrite <- B; lra]. }
  lra.
Qed.
Lemma normalized_value n m ev : env_ok n m -> one_recurrent_class n (en_p m) -> spectrum n (marks (en_p m)) ev ->
  exists pi h r x, distribution n pi /\ stationary n (en_p m) pi /\ entropy_per_step n (en_p m) pi h /\ growth_rate n (en_p m) r /\
    (0 <= h <= ln r)%R /\ entropy_rate_normalized_ev m ev = Ok (Some x) /\
    ((1 / 100000000 < h)%R -> x = (h / ln r)%R) /\ ((h <= 1 / 100000000)%R -> x = 0%R).
Proof.
  intros Hm One Sv. destruct (one_pi n m Hm One) as (pi & E & _ & D & S0 & _). pose proof Hm as (Hn & St & _).
  destruct (topological_value n (en_p m) ev ltac:(lia) St Sv) as (lam & G & _ & _ & (x0 & l0 & Es & El)).
  set (r := erate n (en_p m) pi). assert (Rp : (0 <= r)%R) by (apply erate_nonneg; assumption).
  assert (Rt : (r <= ln lam)%R) by (apply (erate_growth n (en_p m) pi lam); try assumption; lia).
  unfold entropy_rate_normalized_ev. rewrite Es, El.
  pose proof (isclose0R_spec (- r)) as I. rewrite Rabs_Ropp, Rabs_right in I by lra.
  pose proof (isclose0R_spec r) as I2. rewrite Rabs_right in I2 by lra.
  pose proof (entropy_rate_value n m pi Hm E) as V. fold r in V. unfold entropy_rate_normalized.
  exists pi, r, lam. destruct (isclose0R (- r)) eqn:C.
  - exists 0%R. split; [exact D|]. split; [exact S0|]. split; [apply erate_step; assumption|]. split; [exact G|]. split; [auto|]. rewrite V. cbn [bind].
    rewrite C. split; [reflexivity|]. split; intros H; [|reflexivity]. exfalso. assert (r <= / 100000000)%R by (apply I; reflexivity). lra.
  - assert (Lr : (/ 100000000 < r)%R) by (apply Rnot_le_lt; intros H; apply I in H; discriminate).
    assert (C2 : isclose0R r = false) by (destruct (isclose0R r); [|reflexivity]; exfalso; assert (r <= / 100000000)%R by (apply I2; reflexivity); lra).
    assert (Lp : (0 < ln lam)%R) by lra.
    assert (B : (0 <= r / ln lam <= 1)%R).
    { split; [apply Rmult_le_pos; [exact Rp|apply Rlt_le, Rinv_0_lt_compat, Lp]|]. apply (Rmult_le_reg_r (ln lam)); [exact Lp|]. unfold Rdiv. rewrite Rmult_assoc, Rinv_l by lra. lra. }
    exists (r / ln lam)%R. split; [exact D|]. split; [exact S0|]. split; [apply erate_step; assumption|]. split; [exact G|]. split; [auto|]. rewrite V. cbn [bind]. rewrite C2.
    destruct (Req_EM_T (ln lam) 0); [lra|]. rewrite Rmax_right, Rmin_right by lra. split; [reflexivity|]. split; intros H; [reflexivity|lra].
Qed.
