(** L_Spectral3: what the properties computed from the eigenvalues are. *)
From Verif Require Import M_Spectral S_Spectral L_Spectral L_Spectral2 L_Ergodic L_Simulation L_Gen3 L_Measures2 L_Entropy L_Props.
From Coq Require Import Reals Qreals Lra Psatz Permutation Sorted.
Close Scope Q_scope. Close Scope R_scope.
Open Scope nat_scope.
Open Scope res_scope.

(** ** sorting *)
Lemma rinsert_perm x l : Permutation (x :: l) (rinsert x l).
Proof.
  induction l as [|y r IH]; cbn [rinsert]; [apply Permutation_refl|]. destruct (Rle_dec x y); [apply Permutation_refl|].
  eapply perm_trans; [apply perm_swap|]. apply perm_skip, IH.
Qed.
Lemma rsort_perm l : Permutation l (rsort l).
Proof. induction l as [|x r IH]; cbn [rsort fold_right]; [apply Permutation_refl|]. eapply perm_trans; [apply perm_skip, IH|apply rinsert_perm]. Qed.
Lemma rinsert_sorted x l : StronglySorted Rle l -> StronglySorted Rle (rinsert x l).
Proof.
  induction 1 as [|y r H IH F]; cbn [rinsert]; [repeat constructor|]. destruct (Rle_dec x y) as [L|L].
  - constructor; [constructor; assumption|]. constructor; [exact L|]. eapply Forall_impl; [|exact F]. intros; lra.
  - constructor; [exact IH|]. apply Forall_forall. intros z Hz. apply (Permutation_in _ (Permutation_sym (rinsert_perm x r))) in Hz.
    destruct Hz as [<-|Hz]; [lra|]. rewrite Forall_forall in F. apply F, Hz.
Qed.
Lemma rsort_sorted l : StronglySorted Rle (rsort l).
Proof. induction l; cbn [rsort fold_right]; [constructor|apply rinsert_sorted; assumption]. Qed.
Lemma sorted_filter (f : R -> bool) l : StronglySorted Rle l -> StronglySorted Rle (filter f l).
Proof.
  induction 1 as [|y r H IH F]; cbn [filter]; [constructor|]. destruct (f y); [|exact IH]. constructor; [exact IH|].
  apply Forall_forall. intros z Hz. apply filter_In in Hz. rewrite Forall_forall in F. apply F, Hz.
Qed.
Lemma sorted_last x r : StronglySorted Rle (x :: r) -> In (last r x) (x :: r) /\ forall y, In y (x :: r) -> (y <= last r x)%R.
Proof.
  revert x. induction r as [|a r IH]; intros x H; [split; [left; reflexivity|intros y [<-|[]]; cbn; lra]|].
  inversion H as [|? ? H1 H2]; subst. destruct (IH a H1) as [I1 I2].
  assert (E : last (a :: r) x = last r a). { clear. revert a x. induction r as [|b r IH]; intros a x; [reflexivity|]. change (last (a :: b :: r) x) with (last (b :: r) x). rewrite (IH b x). symmetry. apply (IH b a). }
  rewrite E. split; [right; exact I1|]. intros y [<-|Hy]; [|apply I2, Hy].
  rewrite Forall_forall in H2. specialize (H2 a (or_introl eq_refl)). specialize (I2 a (or_introl eq_refl)). lra.
Qed.
Lemma sorted_max l : l <> [] -> exists x r, eigenvalues_sorted l = x :: r /\ (exists z, In z l /\ cmod z = last r x) /\ forall z, In z l -> (cmod z <= last r x)%R.
Proof.
  intros N. unfold eigenvalues_sorted. pose proof (rsort_perm (map cmod l)) as Pm. pose proof (rsort_sorted (map cmod l)) as So.
  destruct (rsort (map cmod l)) as [|x r]. { apply Permutation_sym, Permutation_nil in Pm. destruct l; [contradiction|discriminate]. }
  exists x, r. split; [reflexivity|]. destruct (sorted_last x r So) as [I M]. split.
  - apply (Permutation_in _ (Permutation_sym Pm)) in I. apply in_map_iff in I. destruct I as (z & E & Hz). exists z. auto.
  - intros z Hz. apply M, (Permutation_in _ Pm), in_map, Hz.
Qed.

(** ** tolerances *)
Lemma rtol_R : Qc2R rtol = (/ 100000)%R.
Proof. unfold Qc2R, rtol. replace (this (Q2Qc (1 # 100000))) with (1 # 100000)%Q by reflexivity. unfold Q2R. cbn [Qnum Qden]. lra. Qed.
Lemma iscloseR_spec a b : iscloseR a b = true <-> (Rabs (a - b) <= / 100000000 + / 100000 * Rabs b)%R.
Proof. unfold iscloseR. rewrite atol_R, rtol_R. destruct (Rle_dec _ _); split; intros; (assumption || reflexivity || discriminate || contradiction). Qed.
Lemma close_one x : (x <= 1)%R -> iscloseR x 1 = true <-> (1 - 1001 / 100000000 <= x)%R.
Proof. intros H. rewrite iscloseR_spec, Rabs_R1. rewrite Rabs_left1 by lra. split; lra. Qed.
Lemma close_zero x : (0 <= x)%R -> iscloseR x 0 = true <-> (x <= 1 / 100000000)%R.
Proof. intros H. rewrite iscloseR_spec, Rabs_R0. rewrite Rabs_pos_eq by lra. split; lra. Qed.

(** ** the second largest modulus is the rate of convergence *)
Lemma max_other n (f : nat -> R) i0 : 2 <= n -> i0 < n -> exists i1, i1 < n /\ i1 <> i0 /\ forall i, i < n -> i <> i0 -> (f i <= f i1)%R.
Proof.
  intros Hn Hi0. assert (G : forall k, k <= n -> (forall i, i < k -> i = i0) \/ exists i1, i1 < n /\ i1 <> i0 /\ forall i, i < k -> i <> i0 -> (f i <= f i1)%R).
  { induction k as [|k IH]; intros Hk; [left; lia|]. destruct (IH ltac:(lia)) as [A|(i1 & H1 & N1 & M)].
    - destruct (Nat.eq_dec k i0) as [E|N]; [left; intros i Hi; destruct (Nat.eq_dec i k); [congruence|apply A; lia]|].
      right. exists k. split; [lia|]. split; [exact N|]. intros i Hi Ni. destruct (Nat.eq_dec i k) as [->|]; [lra|exfalso; apply Ni, A; lia].
    - right. destruct (Nat.eq_dec k i0) as [E|N].
      + exists i1. split; [exact H1|]. split; [exact N1|]. intros i Hi Ni. apply M; lia.
      + destruct (Rle_lt_dec (f k) (f i1)) as [L|L].
        * exists i1. split; [exact H1|]. split; [exact N1|]. intros i Hi Ni. destruct (Nat.eq_dec i k) as [->|]; [exact L|apply M; lia].
        * exists k. split; [lia|]. split; [exact N|]. intros i Hi Ni. destruct (Nat.eq_dec i k) as [->|]; [lra|]. specialize (M i ltac:(lia) Ni). lra. }
  destruct (G n (le_n n)) as [A|H]; [|exact H]. exfalso. pose proof (A 0 ltac:(lia)). pose proof (A 1 ltac:(lia)). lia.
Qed.
(** The position of the eigenvalue 1, and the largest of the other absolute values. *)
Definition second (ev : list cx) (s : R) : Prop :=
  exists i0 i1, i0 < length ev /\ i1 < length ev /\ i1 <> i0 /\ nth i0 ev zeroC = oneC /\ cmod (nth i1 ev zeroC) = s /\ (s < 1)%R /\
    forall i, i < length ev -> i <> i0 -> (cmod (nth i ev zeroC) <= s)%R.
Lemma second_rate n P pi ev : 2 <= n -> stochastic n P -> ergodic n P -> distribution n pi -> stationary n P pi -> spectrum n (cmat_of P) ev ->
  exists s, second ev s /\ decay_rate n P pi s.
Proof.
  intros Hn St Er Dp Sp Sv. destruct (ergodic_spectrum n P pi Hn St Er Dp Sp ev Sv) as (i0 & Hi0 & E0 & Ot & Sm).
  pose proof (proj1 Sv) as L. destruct (max_other n (fun i => cmod (nth i ev zeroC)) i0 Hn Hi0) as (i1 & H1 & N1 & M). cbn beta in M.
  set (s := cmod (nth i1 ev zeroC)) in *. assert (S1 : (s < 1)%R) by (apply Ot; assumption). assert (S0 : (0 <= s)%R) by apply cmod_nonneg.
  exists s. split.
  - exists i0, i1. rewrite L. repeat (split; [assumption || reflexivity|]). exact M.
  - split; [exact S0|]. split; [intros rho Hr|intros rho Hr B].
    + apply (decay_pow n P pi Hn St Dp Sp); [lra|]. apply (spectral_radius n _ _ s Sm S0); [|exact Hr].
      intros z Hz. apply in_tab in Hz. destruct Hz as (i & Hi & Ez). destruct (Nat.eqb_spec i i0) as [E|N]; subst z; [rewrite cmod_0; exact S0|apply M; assumption].
    + apply (decay_pow n P pi Hn St Dp Sp) in B; [|exact Hr]. apply (spectral_radius_lower n _ _ rho Sm Hr B).
      apply in_tab. exists i1. split; [exact H1|]. destruct (Nat.eqb_spec i1 i0); [contradiction|reflexivity].
Qed.
Lemma second_le1 ev s : second ev s -> forall z, In z ev -> (cmod z <= 1)%R.
Proof.
  intros (i0 & i1 & H0 & H1 & N & E0 & E1 & L & M) z Hz. destruct (In_nth ev z zeroC Hz) as (i & Hi & Ei). subst z.
  destruct (Nat.eq_dec i i0) as [->|Ni]; [rewrite E0, cmod_1; lra|specialize (M i Hi Ni); lra].
Qed.
Lemma slem_value ev s : second ev s -> (s < 1 - 1001 / 100000000)%R ->
  slem ev = Ok (if Rle_dec s (1 / 100000000) then None else Some s).
Proof.
  intros Se Ls. pose proof (second_le1 ev s Se) as Le. destruct Se as (i0 & i1 & H0 & H1 & N & E0 & E1 & L & M). unfold slem.
  pose proof (rsort_perm (map cmod ev)) as Pm. pose proof (rsort_sorted (map cmod ev)) as So. unfold eigenvalues_sorted.
  apply (sorted_filter (fun x => negb (iscloseR x 1))) in So.
  assert (Is : In s (filter (fun x => negb (iscloseR x 1)) (rsort (map cmod ev)))).
  { apply filter_In. split.
    - apply (Permutation_in _ Pm). rewrite <- E1. apply in_map, nth_In, H1.
    - apply negb_true_iff. destruct (iscloseR s 1) eqn:C; [|reflexivity]. apply close_one in C; lra. }
  assert (Us : forall y, In y (filter (fun x => negb (iscloseR x 1)) (rsort (map cmod ev))) -> (y <= s)%R).
  { intros y Hy. apply filter_In in Hy. destruct Hy as [Hy Cy]. apply (Permutation_in _ (Permutation_sym Pm)) in Hy. apply in_map_iff in Hy. destruct Hy as (z & Ez & Hz).
    destruct (In_nth ev z zeroC Hz) as (i & Hi & Ei). destruct (Nat.eq_dec i i0) as [E|Ni].
    - exfalso. subst i. rewrite E0 in Ei. subst z. rewrite cmod_1 in Ez. subst y. apply negb_true_iff in Cy.
      assert (iscloseR 1 1 = true) by (apply close_one; lra). congruence.
    - rewrite <- Ez, <- Ei. apply M; assumption. }
  destruct (filter _ _) as [|x r]; [destruct Is|]. destruct (sorted_last x r So) as [I1 I2].
  assert (E : last r x = s). { apply Rle_antisym; [apply Us, I1|apply I2, Is]. }
  rewrite E. assert (S0 : (0 <= s)%R) by (rewrite <- E1; apply cmod_nonneg). destruct (Rle_dec s (1 / 100000000)) as [D|D].
  - apply close_zero in D; [|exact S0]. rewrite D. reflexivity.
  - destruct (iscloseR s 0) eqn:C; [|reflexivity]. apply close_zero in C; [contradiction|exact S0].
Qed.
Lemma ergodic_run n m : env_ok n m -> ergodic n (en_p m) -> is_ergodic m = Ok true.
Proof. intros Hm E. destruct (is_ergodic_spec n m Hm) as (b & Eb & Hb). rewrite Eb. f_equal. apply Hb, E. Qed.
Lemma not_ergodic_run n m : env_ok n m -> ~ ergodic n (en_p m) -> is_ergodic m = Ok false.
Proof. intros Hm E. destruct (is_ergodic_spec n m Hm) as (b & Eb & Hb). rewrite Eb. destruct b; [|reflexivity]. exfalso. apply E, Hb. reflexivity. Qed.

Lemma gap_value n m ev : env_ok n m -> ergodic n (en_p m) -> spectrum n (cmat_of (en_p m)) ev ->
  exists pi s, distribution n pi /\ stationary n (en_p m) pi /\ decay_rate n (en_p m) pi s /\ (s < 1)%R /\
    ((s <= 1 / 100000000)%R -> spectral_gap m ev = Ok None /\ relaxation_rate m ev = Ok None /\ mixing_rate m ev = Ok None) /\
    ((1 / 100000000 < s < 1 - 1001 / 100000000)%R ->
       spectral_gap m ev = Ok (Some (1 - s)%R) /\ relaxation_rate m ev = Ok (Some (1 / (1 - s))%R) /\
       exists t, mixing_rate m ev = Ok (Some t) /\ (0 < t)%R /\ exp (- (1 / t)) = s).
Proof.
  intros Hm Er Sv. pose proof Hm as (Hn & St & _). destruct (ergodic_pi n m Hm (proj1 Er)) as (pi & E0 & D & S0 & Pp & _).
  destruct (second_rate n (en_p m) pi ev Hn St Er D S0 Sv) as (s & Se & Dr).
  assert (L1 : (s < 1)%R) by (destruct Se as (i0 & i1 & _ & _ & _ & _ & _ & L & _); exact L).
  exists pi, s. split; [exact D|]. split; [exact S0|]. split; [exact Dr|]. split; [exact L1|].
  unfold spectral_gap, relaxation_rate, mixing_rate, spectral_gap, mc_slem. rewrite (ergodic_run n m Hm Er). cbn [bind].
  split; intros H.
  - rewrite (slem_value ev s Se) by lra. destruct (Rle_dec s (1 / 100000000)); [|lra]. cbn [bind]. auto.
  - rewrite (slem_value ev s Se) by lra. destruct (Rle_dec s (1 / 100000000)); [lra|]. cbn [bind]. split; [reflexivity|]. split; [reflexivity|].
    assert (Ln : (ln s < 0)%R) by (rewrite <- ln_1; apply ln_increasing; lra).
    exists (- (1) / ln s)%R. split; [reflexivity|]. split.
    + replace (- (1) / ln s)%R with (/ (- ln s))%R by (field; lra). apply Rinv_0_lt_compat. lra.
    + replace (- (1 / (- (1) / ln s)))%R with (ln s) by (field; lra). apply exp_ln. lra.
Qed.
Lemma gap_none n m ev : env_ok n m -> ~ ergodic n (en_p m) ->
  spectral_gap m ev = Ok None /\ relaxation_rate m ev = Ok None /\ mixing_rate m ev = Ok None /\ implied_timescales m ev = Ok None.
Proof.
  intros Hm E. unfold spectral_gap, relaxation_rate, mixing_rate, implied_timescales, mc_slem. rewrite (not_ergodic_run n m Hm E). cbn [bind negb]. auto.
Qed.
