(** L_Query2: the summaries. *)
From Verif Require Export L_Query.
From Coq Require Import Permutation.
Open Scope nat_scope.
Open Scope res_scope.

Lemma q_no_label v names : labels_ok names -> (forall k, ~ designates1 names v k) -> exists e, v_label v names = Err e.
Proof.
  intros Ok0 H. destruct (v_label v names) as [k|e] eqn:E; [|exists e; reflexivity]. exfalso. apply (H k). apply v_label_designates; assumption.
Qed.
Lemma q_reject n m v : env_ok n m -> (forall s, In s (en_names m) -> nonblank s = true) -> (forall k, ~ designates1 (en_names m) v k) ->
  exists e, is_recurrent_state m v = Err e /\ is_transient_state m v = Err e /\ is_cyclic_state m v = Err e /\ is_absorbing_state m v = Err e.
Proof.
  intros Hm Nb H. destruct (q_no_label v (en_names m)) as (e & E); [split; [apply Hm|exact Nb]|exact H|]. exists e.
  unfold is_recurrent_state, is_transient_state, is_cyclic_state, is_absorbing_state. rewrite E. repeat split.
Qed.
Lemma q_states_spec n m v k : env_ok n m -> (forall s, In s (en_names m) -> nonblank s = true) -> designates1 (en_names m) v k ->
  exists r t c a, is_recurrent_state m v = Ok r /\ is_transient_state m v = Ok t /\ is_cyclic_state m v = Ok c /\ is_absorbing_state m v = Ok a /\
    (r = true <-> recurrent n (edge (en_p m)) k) /\ t = negb r /\ (c = true <-> irreducible n (edge (en_p m))) /\
    (a = true <-> within (mget (en_p m) k k) 1q).
Proof. intros Hm Nb D. exact (q_states n m Hm Nb v k D). Qed.
Lemma q_move p names target origin x : labels_ok names ->
  (probability_of_move p names target origin = Ok x <-> exists t o, designates1 names target t /\ designates1 names origin o /\ x = mget p o t).
Proof.
  intros L. unfold probability_of_move. split.
  - destruct (v_label target names) as [t|] eqn:Et; [|discriminate]. destruct (v_label origin names) as [o|] eqn:Eo; [|discriminate]. cbn [bind]. intros H. injection H as <-.
    exists t, o. split; [apply v_label_designates; assumption|]. split; [apply v_label_designates; assumption|reflexivity].
  - intros (t & o & Dt & Do & ->). apply v_label_designates in Dt; [|exact L]. apply v_label_designates in Do; [|exact L]. rewrite Dt, Do. reflexivity.
Qed.
Lemma q_emission h symbol state x : labels_ok (h_states h) -> labels_ok (h_symbols h) ->
  (emission_probability h symbol state = Ok x <-> exists y s, designates1 (h_symbols h) symbol y /\ designates1 (h_states h) state s /\ x = mget (h_e h) s y).
Proof.
  intros L L'. unfold emission_probability. split.
  - destruct (v_label symbol _) as [t|] eqn:Et; [|discriminate]. destruct (v_label state _) as [o|] eqn:Eo; [|discriminate]. cbn [bind]. intros H. injection H as <-.
    exists t, o. split; [apply v_label_designates; assumption|]. split; [apply v_label_designates; assumption|reflexivity].
  - intros (t & o & Dt & Do & ->). apply v_label_designates in Dt; [|exact L']. apply v_label_designates in Do; [|exact L]. rewrite Dt, Do. reflexivity.
Qed.

(** ** The classes *)
Lemma q_classes n p comps : wf n n p -> scc_enum n (edge p) comps ->
  classes_of n (edge p) (recurrent_classes_indices p comps) (transient_classes_indices p comps) /\
  length (communicating_indices comps) = length (recurrent_classes_indices p comps) + length (transient_classes_indices p comps).
Proof.
  intros Wp HE. destruct (communicating_listing n _ comps HE) as ((HP & HM) & _).
  destruct (classes_enum n _ comps HE) as ((HPc & _) & _). pose proof (part_nodup n _ HPc) as NDc.
  assert (PM : Permutation (recurrent_classes_indices p comps ++ transient_classes_indices p comps) (communicating_indices comps)).
  { apply NoDup_Permutation.
    - apply NoDup_app_intro.
      + unfold recurrent_classes_indices. apply (Permutation_NoDup (sort_classes_perm _)). apply NoDup_filter. exact NDc.
      + unfold transient_classes_indices. apply (Permutation_NoDup (sort_classes_perm _)).
        assert (Lc : length (classes_indices comps) = length comps) by (unfold classes_indices; apply map_length).
        assert (G : forall l, NoDup l -> (forall k, In k l -> k < length comps) -> NoDup (map (fun k => nth k (classes_indices comps) []) l)).
        { induction l as [|a l IH]; intros Nl Hl; [constructor|]. inversion Nl as [|? ? Na Nl']; subst. cbn [map]. constructor; [|apply IH; [exact Nl'|intros; apply Hl; right; assumption]].
          intros C. apply in_map_iff in C. destruct C as (b & Eb & Ib). apply (NoDup_nth (classes_indices comps) []) in Eb; [subst; contradiction|exact NDc| |]; rewrite Lc; apply Hl; [right; exact Ib|left; reflexivity]. }
        apply G; [apply NoDup_filter, seq_NoDup|]. intros k Hk. apply filter_In in Hk. destruct Hk as (Hk & _). apply in_seq in Hk. lia.
      + intros B HR HT. destruct (recurrent_transient_spec n p comps B Wp HE) as (R & T). apply R in HR. apply T in HT. destruct HT as (_ & HT). apply HT, HR.
    - exact (part_nodup n _ HP).
    - intros B. rewrite in_app_iff. destruct (recurrent_transient_spec n p comps B Wp HE) as (R & T). rewrite R, T. destruct (closed_dec n p B); tauto. }
  split.
  - split; [exact (partition_perm n _ _ (Permutation_sym PM) HP)|]. split; [|split].
    + intros B i j HB. apply HM. exact (Permutation_in _ PM HB).
    + intros B HB. apply (recurrent_transient_spec n p comps B Wp HE) in HB. apply HB.
    + intros B HB. apply (recurrent_transient_spec n p comps B Wp HE) in HB. apply HB.
  - rewrite <- (Permutation_length PM), app_length. reflexivity.
Qed.

(** ** The period is always computed *)
Lemma q_period n m : env_ok n m -> exists a d, is_aperiodic (en_p m) (en_names m) (en_nx m) (en_nxa m) = Ok a /\
  period (en_p m) (en_names m) (en_nx m) (en_nxa m) = Ok d /\ (a = true -> d = 1%Z) /\
  (irreducible n (edge (en_p m)) -> (1 <= d)%Z /\ (forall x, x < n -> period_of n (edge (en_p m)) x d) /\ a = Z.eqb d 1).
Proof.
  intros Hm. pose proof Hm as (Hn & St & Ln & Nd & Nx). pose proof (proj1 St) as Wp.
  destruct (is_irreducible (nx_comps (en_nx m))) eqn:I.
  - assert (Ir : irreducible n (edge (en_p m))) by (apply (is_irreducible_spec n (en_p m) (nx_comps (en_nx m))); [lia|exact Wp|apply Nx|exact I]).
    destruct (period_irreducible n (en_p m) (en_names m) (en_nx m) (en_nxa m) Hn St Ln Nd Nx Ir) as (d & Hd & Hd1 & Hper & Hap).
    exists (Z.eqb d 1), d. split; [exact Hap|]. split; [exact Hd|]. split; [apply Z.eqb_eq|]. intros _. split; [exact Hd1|]. split; [exact Hper|reflexivity].
  - assert (NI : ~ irreducible n (edge (en_p m))) by (intros Ir; apply (is_irreducible_spec n (en_p m) (nx_comps (en_nx m))) in Ir; [congruence|lia|exact Wp|apply Nx]).
    destruct (calculate_periods_gen n (en_p m) (en_names m) (en_nx m) Wp Ln Nd Nx) as (per & Hper & _).
    unfold is_aperiodic, period. unfold is_aperiodic. rewrite Hper, I. cbn [bind].
    set (a := if forallb (Z.eqb 1) per then true else en_nxa m).
    assert (Ea : (if forallb (Z.eqb 1) per then Ok true else Ok (en_nxa m)) = Ok a) by (unfold a; destruct (forallb _ per); reflexivity).
    rewrite Ea. cbn [bind]. destruct a.
    + exists true, 1%Z. split; [reflexivity|]. split; [reflexivity|]. split; [reflexivity|]. intros Ir. contradiction.
    + exists false.
      assert (G : forall l z, (forall rc, In rc l -> In rc (communicating_indices (nx_comps (en_nx m)))) ->
        exists d, fold_left (fun acc rc => bind acc (fun per0 => match index_of list_nat_eqb rc (communicating_indices (nx_comps (en_nx m))) with
          | None => Err ValueErr | Some k => let q := nth k per 0%Z in Ok (Z.div (per0 * q) (Z.gcd per0 q)) end)) l (Ok z) = Ok d).
      { induction l as [|rc l IH]; intros z Hl; [exists z; reflexivity|]. cbn [fold_left bind].
        destruct (index_of list_nat_eqb rc (communicating_indices (nx_comps (en_nx m)))) as [k|] eqn:E; [apply IH; intros; apply Hl; right; assumption|].
        exfalso. destruct (list_index_of rc _ (Hl rc (or_introl eq_refl))) as (k & Ek & _). congruence. }
      destruct (G (recurrent_classes_indices (en_p m) (nx_comps (en_nx m))) 1%Z) as (d & Hd).
      { intros rc Hrc. apply (recurrent_transient_spec n (en_p m) _ rc Wp (proj1 Nx)) in Hrc. apply Hrc. }
      exists d. split; [reflexivity|]. split; [exact Hd|]. split; [discriminate|]. intros Ir. contradiction.
Qed.

(** ** The summary of a chain *)
Lemma q_absorbing n m : env_ok n m -> exists b, is_absorbing (en_p m) = Ok b /\
  (b = true <-> forall i, i < n -> exists a, a < n /\ within (mget (en_p m) a a) 1q /\ reach n (edge (en_p m)) i a).
Proof.
  intros (Hn & St & _). pose proof (proj1 St) as Wp. destruct (is_absorbing_spec n (en_p m)) as (b & E & H); [lia|exact Wp|]. exists b. split; [exact E|]. rewrite H.
  split; intros G i Hi; destruct (G i Hi) as (a & Ha); exists a.
  - destruct Ha as (Ia & Ra). apply (absorbing_in n) in Ia; [|exact Wp]. split; [apply Ia|]. split; [apply isclose_within, Ia|exact Ra].
  - destruct Ha as (La & Wa & Ra). split; [|exact Ra]. apply (absorbing_in n); [exact Wp|]. split; [exact La|]. apply isclose_within, Wa.
Qed.
Lemma q_chain n m : env_ok n m -> exists rk rcs tcs e a d ir ab mo rg rv sy,
  mc_str m = Ok (printed (chain_lines n rk (length rcs) (length tcs) e a d ir ab mo rg rv sy)) /\
  is_rank n n (mget (en_p m)) rk /\ classes_of n (edge (en_p m)) rcs tcs /\
  (e = true <-> ergodic n (en_p m)) /\
  (irreducible n (edge (en_p m)) -> (1 <= d)%Z /\ (forall x, x < n -> period_of n (edge (en_p m)) x d) /\ a = Z.eqb d 1) /\
  (ir = true <-> irreducible n (edge (en_p m))) /\
  (ab = true <-> forall i, i < n -> exists j, j < n /\ within (mget (en_p m) j j) 1q /\ reach n (edge (en_p m)) i j) /\
  (mo = true <-> forall i k, i < k -> k < n -> dominated n (en_p m) i k) /\
  (rg = true <-> regular n (en_p m)) /\
  (rv = true <-> one_recurrent_class n (en_p m) /\
     forall pi, distribution n pi -> stationary n (en_p m) pi -> forall i j, i < n -> j < n -> within (S_Props.flow (en_p m) pi i j) (S_Props.flow (en_p m) pi j i)) /\
  (sy = true <-> forall i j, i < n -> j < n -> within (mget (en_p m) i j) (mget (en_p m) j i)).
Proof.
  intros Hm. pose proof Hm as (Hn & St & Ln & Nd & Nx). pose proof (proj1 St) as Wp.
  destruct (is_ergodic_spec n m Hm) as (e & Ee & He). destruct (q_period n m Hm) as (a & d & Ea & Ed & Had & Hirr).
  destruct (q_absorbing n m Hm) as (ab & Eab & Hab). destruct (is_reversible_all n m Hm) as (rv & Erv & Hrv).
  destruct (q_classes n (en_p m) (en_comps m) Wp (proj1 Nx)) as (HC & HL).
  exists (rank (en_p m)), (recurrent_classes_indices (en_p m) (en_comps m)), (transient_classes_indices (en_p m) (en_comps m)), e, a, d,
    (is_irreducible (en_comps m)), ab, (is_stochastically_monotone (en_p m)), (is_regular (en_p m)), rv, (is_symmetric (en_p m)).
  split; [|split; [exact (rank_is n _ Wp)|split; [exact HC|split; [exact He|split; [exact Hirr|]]]]].
  - unfold mc_str. rewrite Ee, Ea. cbn [bind].
    assert (Ed' : (if a then Ok 1%Z else period (en_p m) (en_names m) (en_nx m) (en_nxa m)) = Ok d) by (destruct a; [rewrite (Had eq_refl); reflexivity|exact Ed]).
    rewrite Ed'. cbn [bind]. rewrite Eab, Erv. cbn [bind]. rewrite HL. unfold en_size. rewrite (wf_nrows n n _ Wp). reflexivity.
  - split; [apply (is_irreducible_spec n (en_p m) (en_comps m)); [lia|exact Wp|apply Nx]|]. split; [exact Hab|].
    split; [exact (monotone_dominated n _ St)|]. split; [exact (is_regular_spec n _ Hn St)|]. split; [exact Hrv|exact (is_symmetric_spec n _ Wp)].
Qed.
(** ** The summary of a hidden Markov model *)
Lemma q_hmm n k h nx : 2 <= n -> 0 < k -> stochastic n (h_p h) -> row_stochastic n k (h_e h) -> names_ok n (h_states h) -> length (h_symbols h) = k -> nx_ok n (h_p h) nx ->
  exists e, hmm_str h nx = Ok (printed (hmm_lines n k e (hmm_is_regular n k (h_e h)))) /\ (e = true <-> exists s, mixes n k (h_p h) (h_e h) s).
Proof.
  intros Hn Hk St SE Ns Ly Nx. destruct (hmm_ergodic_spec n k h nx Hn Hk St SE Ns Nx) as (e & Ee & He). exists e. split; [|exact He].
  unfold hmm_str. rewrite Ee. cbn [bind]. rewrite (proj1 Ns), Ly. reflexivity.
Qed.
Lemma q_hmm_one n k h i h' nx : 1 < n -> 1 < k -> stochastic n (h_p h) -> row_stochastic n k (h_e h) -> restrict h (Some (SelOne i)) None = Ok h' -> hmm_str h' nx = Err ValueErr.
Proof. intros A B C D E. unfold hmm_str. rewrite (one_state_raises n k h i h' nx A B C D E). reflexivity. Qed.
(** ** Not aperiodic with period one *)
Definition q_p : mat := qm [[0; 1; 0; 0]; [1 # 2; 0; 1 # 2; 0]; [0; 0; 0; 1]; [0; 0; 1; 0]]%Q.
Definition q_names : list string := ["c"; "d"; "a"; "b"]%string.
Definition q_env : mcenv := mkenv q_p q_names (nx_default q_p) false.
Lemma q_env_ok : env_ok 4 q_env.
Proof.
  split; [lia|]. split; [apply stochasticb_ok; vm_compute; reflexivity|]. split; [reflexivity|].
  split; [repeat constructor; cbn [In q_names]; intuition discriminate|]. apply nx_default_ok. apply wfb_ok. vm_compute. reflexivity.
Qed.
Lemma q_edge i j : i < 4 -> j < 4 -> edge q_p i j -> exists z, (Z.of_nat j = Z.of_nat i + 1 + 2 * z)%Z.
Proof.
  intros Hi Hj E. unfold edge in E. apply Qcltb_lt in E.
  destruct i as [|[|[|[|i]]]]; [| | | |lia]; (destruct j as [|[|[|[|j]]]]; [| | | |lia]); try (vm_compute in E; discriminate).
  - exists 0%Z. reflexivity.
  - exists (-1)%Z. reflexivity.
  - exists 0%Z. reflexivity.
  - exists 0%Z. reflexivity.
  - exists (-1)%Z. reflexivity.
Qed.
Lemma q_walk k i j : walk 4 (edge q_p) k i j -> exists z, (Z.of_nat j = Z.of_nat i + Z.of_nat k + 2 * z)%Z.
Proof.
  induction 1 as [i Hi|k i j l Hi Hj E W (z & Hz)]; [exists 0%Z; lia|]. destruct (q_edge i j Hi Hj E) as (y & Hy). exists (y + z)%Z. lia.
Qed.
Lemma q_even k x : walk 4 (edge q_p) k x x -> (2 | Z.of_nat k)%Z.
Proof. intros W. destruct (q_walk k x x W) as (z & Hz). exists (- z)%Z. lia. Qed.
Lemma q_period_two x y : x < 4 -> y < 4 -> edge q_p x y -> edge q_p y x -> period_of 4 (edge q_p) x 2.
Proof.
  intros Hx Hy E1 E2. split; [lia|]. split; [intros k; apply q_even|]. intros e H. apply (H 2).
  apply walk_cons with y; [exact Hx|exact Hy|exact E1|]. apply walk_cons with x; [exact Hy|exact Hx|exact E2|]. apply walk_nil. exact Hx.
Qed.
Lemma q_period_one_refuted : exists n m, env_ok n m /\ nx_aperiodic_doc n (edge (en_p m)) (en_nxa m) /\ (forall x, x < n -> period_of n (edge (en_p m)) x 2) /\
  mc_str m = Ok (printed (chain_lines 4 4 1 1 false false 1 false false false false true false)).
Proof.
  exists 4, q_env. split; [exact q_env_ok|]. split; [|split].
  - split; [discriminate|]. intros H. destruct (H 2%Z ltac:(lia)) as (x & l & _ & W & N). exfalso. apply N. exact (q_even l x W).
  - intros x Hx. cbn [en_p q_env].
    destruct x as [|[|[|[|x]]]]; [apply (q_period_two 0 1)|apply (q_period_two 1 0)|apply (q_period_two 2 3)|apply (q_period_two 3 2)|]; try lia; unfold edge; apply Qcltb_lt; vm_compute; reflexivity.
  - vm_compute. reflexivity.
Qed.
(** ** Examples *)
Definition q_hmm1 : hmm := mkhmm (qm [[1 # 2; 1 # 2]; [1; 0]]%Q) (qm [[1 # 3; 2 # 3]; [3 # 4; 1 # 4]]%Q) ["A"; "B"]%string ["u"; "v"]%string.
