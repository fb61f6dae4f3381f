(** L_MeasuresR: refutations about measures, and tools for the examples. *)
From Verif Require Export L_Measures3 Dec ExM.
Open Scope res_scope.

Lemma env_default_ok n c : valid_chain n c -> env_ok n (env c).
Proof.
  intros (Hn & St & (L & ND & _)). split; [exact Hn|]. split; [exact St|]. split; [exact L|]. split; [exact ND|].
  apply nx_default_ok. apply St.
Qed.
Lemma env_b n c : valid_chainb n c = true -> env_ok n (env c).
Proof. intros H. apply env_default_ok, valid_chainb_ok, H. Qed.
Lemma ergodic_b n c : valid_chainb n c = true -> is_ergodic (env c) = Ok true -> ergodic n (ch_p c).
Proof.
  intros V E. pose proof (env_b n c V) as HE. destruct (is_ergodic_spec n (env c) HE) as (b & Hb & Hs). rewrite E in Hb. injection Hb as <-. apply Hs. reflexivity.
Qed.
Definition some_or {A} (d : A) (r : res (option A)) : A := match r with Ok (Some x) => x | _ => d end.
Definition ok_or {A} (d : A) (r : res A) : A := match r with Ok x => x | _ => d end.
Definition is_some {A} (r : res (option A)) : bool := match r with Ok (Some _) => true | _ => false end.
Lemma some_or_eq {A} (d : A) r : is_some r = true -> r = Ok (Some (some_or d r)).
Proof. destruct r as [[x|]|]; cbn; congruence. Qed.
Lemma ok_or_eq {A} (d : A) r : is_ok r = true -> r = Ok (ok_or d r).
Proof. destruct r; cbn; congruence. Qed.
Definition diagonalisesb (n : nat) (P : mat) (d : rdl) : bool :=
  wfb n n (rdl_r d) && wfb n n (rdl_l d) && meqb (mmul (rdl_l d) (rdl_r d)) (eye n) && meqb (mmul (rdl_r d) (rdl_l d)) (eye n)
  && all2 n n (fun i j => Nat.eqb i j || Qceqb (mget (rdl_d d) i j) 0) && wfb n n (rdl_d d) && meqb (mmul (mmul (rdl_r d) (rdl_d d)) (rdl_l d)) P.
Lemma diagonalisesb_ok n P d : diagonalisesb n P d = true -> diagonalises n P d.
Proof.
  unfold diagonalisesb. rewrite !andb_true_iff. intros ((((((H1 & H2) & H3) & H4) & H5) & H6) & H7).
  split; [apply wfb_ok; exact H1|]. split; [apply wfb_ok; exact H2|]. split; [apply meqb_eq; exact H3|]. split; [apply meqb_eq; exact H4|].
  split; [|split; [apply wfb_ok; exact H6|apply meqb_eq; exact H7]].
  intros i j Hi Hj Ne. pose proof (all2_spec _ _ _ H5 i j Hi Hj) as E. apply orb_true_iff in E. destruct E as [E|E]; [apply Nat.eqb_eq in E; contradiction|apply Qceqb_eq; exact E].
Qed.

(** C45: the loop doubles the total at each step *)
Lemma et_loop_sum n P k x : 0 < n -> stochastic n P -> length x = n -> length (et_loop P k x) = n /\ sumn n (vget (et_loop P k x)) = (qpow (Qcn 2) k * sumn n (vget x))%Qc.
Proof.
  intros Hn St. revert x. induction k as [|k IH]; intros x Lx; cbn [et_loop qpow]; [split; [exact Lx|ring]|].
  set (y := tab (length x) (fun i => vget x i + vget (vmul x P) i)%Qc).
  assert (Ly : length y = n) by (unfold y; rewrite tab_length; exact Lx).
  destruct (IH y Ly) as [A B]. split; [exact A|]. rewrite B.
  assert (E : sumn n (vget y) = (Qcn 2 * sumn n (vget x))%Qc).
  { rewrite (sumn_ext n _ (fun i => vget x i + sumn n (fun a => vget x a * mget P a i))%Qc).
    - rewrite sumn_plus, (sumn_swap n n). rewrite (sumn_ext n (fun j => sumn n (fun i => vget x j * mget P j i))%Qc (vget x)).
      + change (sumn n (fun i => vget x i)) with (sumn n (vget x)). change (Qcn 2) with (Q2Qc (2 # 1)). replace (Q2Qc (2 # 1)) with (1 + 1)%Qc by (apply Qc_is_canon; reflexivity). ring.
      + intros i Hi. rewrite sumn_mul_l. change (sumn n (fun j => mget P i j)) with (sumn n (mget P i)). rewrite (st_row n P i St Hi). ring.
    - intros i Hi. unfold y. rewrite vget_tab by (rewrite Lx; exact Hi). f_equal. apply (vget_vmul n n); [apply St|exact Hn|exact Hi]. }
  rewrite E. ring.
Qed.
Lemma expected_transitions_total n P d steps x : 0 < n -> stochastic n P -> distribution n x -> 1 <= steps <= n ->
  exists et, expected_transitions P (Ok d) steps x = Ok et /\ sumn n (fun a => sumn n (fun b => mget et a b)) = qpow (Qcn 2) (steps - 1).
Proof.
  intros Hn St (Lx & _ & S1) Hs. pose proof (proj1 St) as W. unfold expected_transitions.
  replace (Nat.ltb 0 steps) with true by (symmetry; apply Nat.ltb_lt; lia). rewrite (wf_nrows _ _ _ W), Lx, Nat.eqb_refl. cbn [bind].
  replace (Nat.leb steps n) with true by (symmetry; apply Nat.leb_le; lia). eexists. split; [reflexivity|].
  destruct (et_loop_sum n P (steps - 1) x Hn St Lx) as [A B]. rewrite S1 in B. replace (qpow (Qcn 2) (steps - 1)) with (qpow (Qcn 2) (steps - 1) * 1)%Qc by ring. rewrite <- B.
  apply sumn_ext. intros a Ha. rewrite (sumn_ext n _ (fun b => vget (et_loop P (steps - 1) x) a * mget P a b)%Qc) by (intros; rewrite mget_mk by assumption; reflexivity).
  rewrite sumn_mul_l. change (sumn n (fun j => mget P a j)) with (sumn n (mget P a)). rewrite (st_row n P a St Ha). ring.
Qed.
Lemma expected_transitions_refuted : exists n P d x et, 2 <= n /\ stochastic n P /\ diagonalises n P d /\ distribution n x /\ 3 <= n /\
  expected_transitions P (Ok d) 3 x = Ok et /\
  sumn n (fun a => sumn n (fun b => mget et a b)) <> Qcn 3 /\ mget et 0 0 <> expected_moves n P x 3 0 0.
Proof.
  exists 3, pS, dS, (qv [1; 0; 0]%Q). eexists.
  split; [lia|]. split; [apply stochasticb_ok; vm_compute; reflexivity|]. split; [apply diagonalisesb_ok; vm_compute; reflexivity|].
  split; [apply distributionb_ok; vm_compute; reflexivity|]. split; [lia|]. split; [apply (ok_or_eq []); vm_compute; reflexivity|].
  split; apply Qceqb_neq; vm_compute; reflexivity.
Qed.
Definition cdiagonalisesb (n : nat) (P Rre Rim Dre Dim Lre Lim : mat) : bool :=
  all2 n n (fun i j => Nat.eqb i j || (Qceqb (mget Dre i j) 0 && Qceqb (mget Dim i j) 0)) &&
  meqb (cmul_re Lre Lim Rre Rim) (eye n) && meqb (cmul_im Lre Lim Rre Rim) (zero_mat n) &&
  meqb (cmul_re (cmul_re Rre Rim Dre Dim) (cmul_im Rre Rim Dre Dim) Lre Lim) P &&
  meqb (cmul_im (cmul_re Rre Rim Dre Dim) (cmul_im Rre Rim Dre Dim) Lre Lim) (zero_mat n).
Lemma cdiagonalisesb_ok n P a b c d e f : cdiagonalisesb n P a b c d e f = true -> cdiagonalises n P a b c d e f.
Proof.
  unfold cdiagonalisesb. rewrite !andb_true_iff. intros ((((H1 & H2) & H3) & H4) & H5).
  split; [|repeat split; apply meqb_eq; assumption].
  intros i j Hi Hj Ne. pose proof (all2_spec _ _ _ H1 i j Hi Hj) as E. apply orb_true_iff in E. destruct E as [E|E]; [apply Nat.eqb_eq in E; contradiction|].
  apply andb_true_iff in E. destruct E. split; apply Qceqb_eq; assumption.
Qed.
Lemma expected_transitions_complex_refuted : exists n P Rre Rim Dre Dim Lre Lim x et, stochastic n P /\ cdiagonalises n P Rre Rim Dre Dim Lre Lim /\
  distribution n x /\ expected_transitions P (Ok (mkrdl Rre Dre Lre)) (n + 2) x = Ok et /\ mget et 1 2 <> expected_moves n P x (n + 2) 1 2.
Proof.
  exists 4, (ch_p cF), rF_re, rF_im, dF_re, dF_im, lF_re, lF_im, (qv [1; 0; 0; 0]%Q). eexists.
  split; [apply stochasticb_ok; vm_compute; reflexivity|]. split; [apply cdiagonalisesb_ok; vm_compute; reflexivity|].
  split; [apply distributionb_ok; vm_compute; reflexivity|]. split; [apply (ok_or_eq []); vm_compute; reflexivity|].
  rewrite expected_moves_dist; [|apply stochasticb_ok; vm_compute; reflexivity|lia|lia]. apply Qceqb_neq. vm_compute. reflexivity.
Qed.
Lemma time_relaxations_complex_refuted : exists n m Rre Rim Dre Dim Lre Lim x s ts v, env_ok n m /\ cdiagonalises n (en_p m) Rre Rim Dre Dim Lre Lim /\
  distribution n x /\ time_relaxations m (Ok (mkrdl Rre Dre Lre)) s x ts = Ok (Some [v]) /\ ts = [n + 1] /\ v <> relax_at n (en_p m) x s (n + 1).
Proof.
  exists 4, (env cF), rF_re, rF_im, dF_re, dF_im, lF_re, lF_im, (qv [1; 0; 0; 0]%Q), [1], [5]. eexists.
  split; [apply env_b; vm_compute; reflexivity|]. split; [apply cdiagonalisesb_ok; vm_compute; reflexivity|].
  split; [apply distributionb_ok; vm_compute; reflexivity|]. split; [|split; [reflexivity|]].
  - assert (E : time_relaxations (env cF) (Ok (mkrdl rF_re dF_re lF_re)) [1] (qv [1; 0; 0; 0]%Q) [5] = Ok (Some [vget (some_or [] (time_relaxations (env cF) (Ok (mkrdl rF_re dF_re lF_re)) [1] (qv [1; 0; 0; 0]%Q) [5])) 0])).
    2: exact E.
    destruct (time_relaxations (env cF) (Ok (mkrdl rF_re dF_re lF_re)) [1] (qv [1; 0; 0; 0]%Q) [5]) as [[[|y [|z l]]|]|] eqn:E;
      try (apply (f_equal (fun r => match r with Ok (Some [_]) => true | _ => false end)) in E; vm_compute in E; discriminate E). reflexivity.
  - apply Qceqb_neq. vm_compute. reflexivity.
Qed.
(** C47 *)
Lemma fpp_set_refuted : exists n P i S z, stochastic n P /\ i < n /\ NoDup S /\ (forall x, In x S -> x < n) /\
  first_passage_set_probabilities P 2 i S = Ok z /\ vget z 1 <> prob_paths n P 2 i (first_entry S) /\ lsum z = Qcn 2.
Proof.
  exists 3, (ch_p c3), 0, [1; 2]. eexists. split; [apply stochasticb_ok; vm_compute; reflexivity|]. split; [lia|]. split; [repeat constructor; cbn; lia|].
  split; [cbn; lia|]. split; [apply (ok_or_eq []); vm_compute; reflexivity|]. split; [apply Qceqb_neq|apply Qceqb_eq]; vm_compute; reflexivity.
Qed.
(** C49 *)
Lemma absorption_refuted : exists n m ap, env_ok n m /\
  (forall i, i < n -> exists a, a < n /\ mget (en_p m) a a = 1q /\ reach n (edge (en_p m)) i a) /\
  absorption_probabilities m = Ok (Some ap) /\ mget ap 0 0 = Q2Qc (199999 # 1).
Proof.
  exists 2, (env cG). eexists. split; [apply env_b; vm_compute; reflexivity|]. split; [|split; [apply (some_or_eq []); vm_compute; reflexivity|apply Qceqb_eq; vm_compute; reflexivity]].
  intros i Hi. exists 1. split; [lia|]. split; [apply Qceqb_eq; vm_compute; reflexivity|].
  destruct i as [|[|]]; [|apply reach_refl; lia|lia]. apply reach_step; [lia|lia|]. unfold edge. vm_compute. reflexivity.
Qed.
(** C50 *)
Lemma committor_refuted : exists n m S1 S2 r, env_ok n m /\ ergodic n (en_p m) /\ S1 = [0] /\ S2 = [2] /\
  committor_probabilities m false S1 S2 = Ok (Some r) /\ vget r 1 <> sumn n (fun j => mget (en_p m) 1 j * vget r j)%Qc.
Proof.
  exists 3, (env cH), [0], [2]. eexists. split; [apply env_b; vm_compute; reflexivity|]. split; [apply ergodic_b; vm_compute; reflexivity|].
  split; [reflexivity|]. split; [reflexivity|]. split; [apply (some_or_eq []); vm_compute; reflexivity|]. apply Qceqb_neq. vm_compute. reflexivity.
Qed.
(** C52 *)
Lemma mixing_time_refuted : exists n m x pi mt, env_ok n m /\ ergodic n (en_p m) /\ distribution n x /\ distribution n pi /\ stationary n (en_p m) pi /\
  mixing_time m x 2 (Q2Qc (1 # 4)) = Ok (Some mt) /\ mt = 4 /\ (l1_after n (en_p m) x pi 2 <= Q2Qc (1 # 4))%Qc.
Proof.
  exists 2, (env cS), (qv [1; 0]%Q), (qv [1 # 2; 1 # 2]%Q), 4. split; [apply env_b; vm_compute; reflexivity|]. split; [apply ergodic_b; vm_compute; reflexivity|].
  split; [apply distributionb_ok; vm_compute; reflexivity|]. split; [apply distributionb_ok; vm_compute; reflexivity|].
  split. { split; [reflexivity|]. intros [|[|j]] Hj; [apply Qceqb_eq; vm_compute; reflexivity..|lia]. }
  split; [vm_compute; reflexivity|]. split; [reflexivity|]. apply Qcleb_le. vm_compute. reflexivity.
Qed.
(** mean recurrence times *)
Lemma recurrence_refuted : exists n m r j, env_ok n m /\ ergodic n (en_p m) /\ j < n /\ mean_recurrence_times m = Ok (Some r) /\ vget r j = 0q.
Proof.
  exists 2, (env cI). eexists. exists 1. split; [apply env_b; vm_compute; reflexivity|]. split; [apply ergodic_b; vm_compute; reflexivity|].
  split; [lia|]. split; [apply (some_or_eq []); vm_compute; reflexivity|]. apply Qceqb_eq. vm_compute. reflexivity.
Qed.

Lemma time_correlations_short n m d s1 s2 ts v : env_ok n m ->
  stationary_distributions (en_p m) (en_comps m) = Ok [v] -> StronglySorted lt ts -> ts <> [] -> last ts 0 <= n ->
  time_correlations m (Ok d) s1 s2 ts = Ok (Some (map (corr_at n (en_p m) v s1 (match s2 with None => s1 | Some s => s end)) ts)).
Proof. intros; apply time_correlations_spec; auto. Qed.
Lemma time_correlations_long n m d s1 s2 ts v : env_ok n m ->
  stationary_distributions (en_p m) (en_comps m) = Ok [v] -> StronglySorted lt ts -> ts <> [] -> diagonalises n (en_p m) d ->
  time_correlations m (Ok d) s1 s2 ts = Ok (Some (map (corr_at n (en_p m) v s1 (match s2 with None => s1 | Some s => s end)) ts)).
Proof. intros; apply time_correlations_spec; auto. Qed.
Lemma time_relaxations_short n m d s x ts v : env_ok n m ->
  stationary_distributions (en_p m) (en_comps m) = Ok [v] -> length x = n -> StronglySorted lt ts -> ts <> [] -> last ts 0 <= n ->
  time_relaxations m (Ok d) s x ts = Ok (Some (map (relax_at n (en_p m) x s) ts)).
Proof. intros; eapply time_relaxations_spec; eauto. Qed.
Lemma time_relaxations_long n m d s x ts v : env_ok n m ->
  stationary_distributions (en_p m) (en_comps m) = Ok [v] -> length x = n -> StronglySorted lt ts -> ts <> [] -> diagonalises n (en_p m) d ->
  time_relaxations m (Ok d) s x ts = Ok (Some (map (relax_at n (en_p m) x s) ts)).
Proof. intros; eapply time_relaxations_spec; eauto. Qed.
