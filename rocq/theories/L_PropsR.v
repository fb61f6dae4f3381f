(** L_PropsR: counterexamples about reversibility, symmetry, incidence and entropy. *)
From Verif Require Export L_Entropy L_MeasuresR ExP.
From Coq Require Import Reals Qreals Lra.
Close Scope Q_scope. Close Scope R_scope.
Open Scope nat_scope.
Open Scope res_scope.

Lemma irr_b n c : valid_chainb n c = true -> is_irreducible (sccs (ch_p c)) = true -> irreducible n (edge (ch_p c)).
Proof.
  intros V E. pose proof (env_b n c V) as (Hn & St & _). apply (is_irreducible_spec n (ch_p c) (sccs (ch_p c))); [lia|apply St|apply sccs_enum, St|exact E].
Qed.
Lemma uniform_stationary n c : valid_chainb n c = true -> forallb (fun j => Qceqb (sumn n (fun i => mget (ch_p c) i j)) 1q) (seq 0 n) = true ->
  stationary n (ch_p c) (uniform n).
Proof.
  intros V H. pose proof (env_b n c V) as (Hn & _). apply doubly_uniform; [lia|]. intros j Hj. apply Qceqb_eq. rewrite forallb_forall in H. apply H, in_seq. lia.
Qed.
Lemma not_reach_b n c i j : valid_chainb n c = true -> i < n -> j < n -> reachb (ch_p c) i j = false -> ~ reach n (edge (ch_p c)) i j.
Proof.
  intros V Hi Hj E R. pose proof (env_b n c V) as (Hn & (W & _) & _). apply (reachb_spec n (ch_p c) i j W Hi Hj) in R. cbn in *. congruence.
Qed.
Lemma recurrent_b n c i : valid_chainb n c = true -> i < n -> forallb (fun y => negb (reachb (ch_p c) i y) || reachb (ch_p c) y i) (seq 0 n) = true ->
  recurrent n (edge (ch_p c)) i.
Proof.
  intros V Hi H. pose proof (env_b n c V) as (Hn & (W & _) & _). cbn in W. split; [exact Hi|]. intros y R. pose proof (reach_lt _ _ _ _ R) as Hy.
  rewrite forallb_forall in H. specialize (H y ltac:(apply in_seq; lia)).
  apply (reachb_spec n (ch_p c) y i W); [lia|exact Hi|]. apply (reachb_spec n (ch_p c) i y W) in R; [|exact Hi|lia]. rewrite R in H. exact H.
Qed.
Lemma reversible_refuted : exists n m pi, env_ok n m /\ irreducible n (edge (en_p m)) /\ distribution n pi /\ stationary n (en_p m) pi /\
  ~ time_reversible n (en_p m) pi /\ is_reversible m = Ok true.
Proof.
  exists 3, (env cTilt), (uniform 3). assert (V : valid_chainb 3 cTilt = true) by (vm_compute; reflexivity).
  split; [apply env_b; exact V|]. split; [apply (irr_b 3 cTilt V); vm_compute; reflexivity|]. split; [apply uniform_distribution; lia|].
  split; [apply (uniform_stationary 3 cTilt V); vm_compute; reflexivity|]. split; [|vm_compute; reflexivity].
  intros T. pose proof (reversible_balance 3 _ _ T 0 1 ltac:(lia) ltac:(lia)) as B. apply Qceqb_eq in B. vm_compute in B. discriminate.
Qed.
Lemma symmetric_refuted : exists n m, env_ok n m /\ is_symmetric (en_p m) = true /\ ~ sym_matrix n (en_p m) /\ is_doubly_stochastic (en_p m) = false.
Proof.
  exists 3, (env cSym3). split; [apply env_b; vm_compute; reflexivity|]. split; [vm_compute; reflexivity|]. split; [|vm_compute; reflexivity].
  intros T. specialize (T 0 1 ltac:(lia) ltac:(lia)). apply Qceqb_eq in T. vm_compute in T. discriminate.
Qed.
Lemma doubly_refuted : exists n m, env_ok n m /\ is_doubly_stochastic (en_p m) = true /\ ~ stationary n (en_p m) (uniform n).
Proof.
  exists 2, (env cCol). split; [apply env_b; vm_compute; reflexivity|]. split; [vm_compute; reflexivity|].
  intros [_ T]. specialize (T 0 ltac:(lia)). apply Qceqb_eq in T. vm_compute in T. discriminate.
Qed.
Lemma incidence_refuted : exists n P u v r, stochastic n P /\ u < n /\ v < n /\ r < n /\ mget P u v = 0q /\ zget (incidence_matrix P) r (u * n + v) = 1%Z.
Proof.
  exists 2, (ch_p cTwo), 0, 1, 0. split; [apply (env_b 2 cTwo); vm_compute; reflexivity|]. repeat (split; [lia|]). split; [apply Qceqb_eq; vm_compute; reflexivity|vm_compute; reflexivity].
Qed.

(** ** A negative entropy rate *)
Lemma Q2R_frac a b : Q2R (a # b) = (IZR a / IZR (Zpos b))%R.
Proof. reflexivity. Qed.
Lemma ln_root x k : (0 < x)%R -> (ln (x ^ k) = INR k * ln x)%R.
Proof.
  intros Hx. induction k as [|k IH]; [cbn; rewrite ln_1; lra|]. rewrite S_INR. cbn [pow]. rewrite ln_mult; [rewrite IH; lra|exact Hx|apply pow_lt; exact Hx].
Qed.
Lemma quiet_ln : (- ln (1 / 1000000000000) <= 4000)%R.
Proof.
  replace (1 / 1000000000000)%R with (/ (1000 ^ 4))%R by lra. rewrite ln_Rinv by (apply pow_lt; lra). rewrite ln_root by lra.
  pose proof (ln_le_sub 1000 ltac:(lra)). cbn [INR]. lra.
Qed.
Lemma entropy_refuted : exists n m h, env_ok n m /\ irreducible n (edge (en_p m)) /\ entropy_rate m = Ok (Some h) /\ (h < 0)%R.
Proof.
  exists 2, (env cQuiet). assert (V : valid_chainb 2 cQuiet = true) by (vm_compute; reflexivity).
  pose proof (env_b 2 cQuiet V) as Hm. assert (Irr : irreducible 2 (edge (ch_p cQuiet))) by (apply (irr_b 2 cQuiet V); vm_compute; reflexivity).
  destruct (one_pi 2 (env cQuiet) Hm (irreducible_one 2 _ Irr)) as (pi & E & _ & D & S0 & U).
  assert (Epi : pi = uniform 2) by (symmetry; apply U; [apply uniform_distribution; lia|apply (uniform_stationary 2 cQuiet V); vm_compute; reflexivity]).
  pose proof (entropy_rate_value 2 (env cQuiet) pi Hm E) as R.
  set (r := erate 2 (en_p (env cQuiet)) pi) in *.
  assert (Rp : (0 < r)%R).
  { assert (R0 : (0 <= r)%R) by (apply erate_nonneg; [apply Hm|exact D]).
    destruct (Rle_lt_or_eq_dec _ _ R0) as [?|Z]; [assumption|]. exfalso. symmetry in Z.
    pose proof (proj1 (erate_zero 2 (en_p (env cQuiet)) pi (proj1 (proj2 Hm)) D) Z 0 1 ltac:(lia) ltac:(lia)) as Dt. rewrite Epi in Dt.
    destruct (Dt ltac:(apply Qcltb_lt; vm_compute; reflexivity)) as [C|C]; apply Qceqb_eq in C; vm_compute in C; discriminate. }
  assert (Rl : (r <= / 100000000)%R).
  { unfold r, erate. rewrite Epi. cbn [seq map lsumR fold_right].
    assert (Ha : Qc2R (vget (uniform 2) 0) = (1 / 2)%R) by (unfold Qc2R; replace (this (vget (uniform 2) 0)) with (1 # 2)%Q by (vm_compute; reflexivity); apply Q2R_frac).
    assert (Hb : Qc2R (vget (uniform 2) 1) = (1 / 2)%R) by (unfold Qc2R; replace (this (vget (uniform 2) 1)) with (1 # 2)%Q by (vm_compute; reflexivity); apply Q2R_frac).
    assert (X1 : xlogx (Q2Qc (1 # 1000000000000)) = (1 / 1000000000000 * ln (1 / 1000000000000))%R).
    { rewrite xlogx_pos by (apply Qcltb_lt; vm_compute; reflexivity). unfold Qc2R. replace (this (Q2Qc (1 # 1000000000000))) with (1 # 1000000000000)%Q by reflexivity. rewrite Q2R_frac. reflexivity. }
    assert (X2 : xlogx (Q2Qc (999999999999 # 1000000000000)) = (999999999999 / 1000000000000 * ln (999999999999 / 1000000000000))%R).
    { rewrite xlogx_pos by (apply Qcltb_lt; vm_compute; reflexivity). unfold Qc2R. replace (this (Q2Qc (999999999999 # 1000000000000))) with (999999999999 # 1000000000000)%Q by (vm_compute; reflexivity). rewrite Q2R_frac. reflexivity. }
    replace (mget (en_p (env cQuiet)) 0 0) with (Q2Qc (999999999999 # 1000000000000)) by reflexivity.
    replace (mget (en_p (env cQuiet)) 0 1) with (Q2Qc (1 # 1000000000000)) by reflexivity.
    replace (mget (en_p (env cQuiet)) 1 0) with (Q2Qc (1 # 1000000000000)) by reflexivity.
    replace (mget (en_p (env cQuiet)) 1 1) with (Q2Qc (999999999999 # 1000000000000)) by reflexivity.
    rewrite Ha, Hb, X1, X2. pose proof quiet_ln as L1.
    assert (L2 : (- ln (999999999999 / 1000000000000) <= / 999999999999)%R).
    { rewrite <- ln_Rinv by lra. pose proof (ln_le_sub (/ (999999999999 / 1000000000000)) ltac:(apply Rinv_0_lt_compat; lra)) as L.
      eapply Rle_trans; [exact L|]. right. field. }
    lra. }
  assert (C : isclose0R (- r) = true) by (apply isclose0R_spec; rewrite Rabs_Ropp, Rabs_right by lra; exact Rl).
  rewrite C in R. exists (- r)%R. split; [exact Hm|]. split; [exact Irr|]. split; [exact R|]. lra.
Qed.
