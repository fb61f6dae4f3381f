(** P_Measures: property theorems about stationary distributions and measures. *)
From Verif Require Import L_MeasuresR.
Open Scope res_scope.

(** ** C41 stationary distributions *)
Theorem C41_stationary_distributions : forall n P comps, 0 < n -> stochastic n P -> scc_enum n (edge P) comps ->
  exists Rs pis, stationary_distributions P comps = Ok pis /\ recurrent_listing n (edge P) Rs /\ Forall2 (pi_ok n P) Rs pis.
Proof. exact pi_listing. Qed.
Print Assumptions C41_stationary_distributions.
Example C41_example : stochastic 4 (ch_p cE) /\ scc_enum 4 (edge (ch_p cE)) (sccs (ch_p cE)) /\
  map showv (ok_or [] (stationary_distributions (ch_p cE) (sccs (ch_p cE)))) = [[1 # 3; 2 # 3; 0; 0]; [0; 0; 0; 1]]%Q.
Proof.
  assert (HS : stochastic 4 (ch_p cE)) by (apply stochasticb_ok; vm_compute; reflexivity).
  split; [exact HS|]. split; [apply sccs_enum; apply HS|vm_compute; reflexivity].
Qed.

(** ** C42 uniqueness *)
Theorem C42_unique_stationary : forall n P comps, 0 < n -> stochastic n P -> irreducible n (edge P) -> scc_enum n (edge P) comps ->
  exists x, stationary_distributions P comps = Ok [x] /\ pi_ok n P (seq 0 n) x /\
    forall v, distribution n v -> stationary n P v -> v = x.
Proof. exact pi_unique. Qed.
Print Assumptions C42_unique_stationary.
Example C42_example : stochastic 3 (ch_p cA) /\ irreducible 3 (edge (ch_p cA)) /\
  map showv (ok_or [] (stationary_distributions (ch_p cA) (sccs (ch_p cA)))) = [[1 # 2; 1 # 4; 1 # 4]]%Q.
Proof.
  split; [apply stochasticb_ok; vm_compute; reflexivity|]. split; [|vm_compute; reflexivity].
  apply (ergodic_b 3 cA); vm_compute; reflexivity.
Qed.

(** ** C43 redistribute *)
Theorem C43_redistribute : forall n P steps x, 0 < n -> stochastic n P -> distribution n x -> 1 <= steps ->
  exists l, redistribute_all P steps x = Ok l /\ length l = steps + 1 /\ redistribute_last P steps x = Ok (nth steps l []) /\
    forall k, k <= steps -> distribution n (nth k l []) /\ forall j, j < n -> vget (nth k l []) j = step_dist n P x k j.
Proof. exact redistribute_spec. Qed.
Print Assumptions C43_redistribute.
Example C43_example : stochastic 3 (ch_p cA) /\ distribution 3 (qv [0; 1; 0]%Q) /\
  map showv (ok_or [] (redistribute_all (ch_p cA) 3 (qv [0; 1; 0]%Q))) = [[0; 1; 0]; [0; 0; 1]; [1; 0; 0]; [1 # 2; 1 # 2; 0]]%Q.
Proof. split; [apply stochasticb_ok; vm_compute; reflexivity|]. split; [apply distributionb_ok; vm_compute; reflexivity|vm_compute; reflexivity]. Qed.

(** ** C44 expected rewards *)
Theorem C44_expected_rewards : forall n P steps r, 0 < n -> stochastic n P -> length r = n -> 1 <= steps ->
  exists er, expected_rewards P steps r = Ok er /\ length er = n /\
    forall i, i < n -> vget er i = exp_paths n P steps i (fun w => path_reward r (i :: w)).
Proof. exact expected_rewards_spec. Qed.
Print Assumptions C44_expected_rewards.
Theorem C44_expected_rewards_powers : forall n P steps r i, 0 < n -> stochastic n P -> length r = n -> i < n ->
  exp_paths n P steps i (fun w => path_reward r (i :: w)) = sumn (steps + 1) (fun t => sumn n (fun j => kstep n P t i j * vget r j)%Qc).
Proof. exact expected_rewards_kstep. Qed.
Print Assumptions C44_expected_rewards_powers.
Example C44_example : stochastic 3 (ch_p cA) /\ showv (ok_or [] (expected_rewards (ch_p cA) 2 (qv [1; 2; 4]%Q))) = [21 # 4; 7; 13 # 2]%Q.
Proof. split; [apply stochasticb_ok; vm_compute; reflexivity|vm_compute; reflexivity]. Qed.

(** ** C45 expected transitions *)
Theorem C45_expected_transitions_small_partial : forall n P dec d steps x, 2 <= n -> stochastic n P -> length x = n -> dec = Ok d -> 1 <= steps <= 2 ->
  exists et, expected_transitions P dec steps x = Ok et /\ wf n n et /\
    forall a b, a < n -> b < n -> mget et a b = expected_moves n P x steps a b.
Proof. exact expected_transitions_small. Qed.
Print Assumptions C45_expected_transitions_small_partial.
Theorem C45_expected_transitions_large_partial : forall n P d steps x, 0 < n -> stochastic n P -> length x = n -> n < steps -> diagonalises n P d ->
  exists et, expected_transitions P (Ok d) steps x = Ok et /\ wf n n et /\
    forall a b, a < n -> b < n -> mget et a b = expected_moves n P x steps a b.
Proof. exact expected_transitions_large. Qed.
Print Assumptions C45_expected_transitions_large_partial.
Theorem C45_expected_moves_total : forall n P x k, stochastic n P -> sumn n (vget x) = 1q ->
  sumn n (fun a => sumn n (fun b => expected_moves n P x k a b)) = Qcn k.
Proof. exact expected_moves_total. Qed.
Print Assumptions C45_expected_moves_total.
Theorem C45_returned_total_partial : forall n P d steps x, 0 < n -> stochastic n P -> distribution n x -> 1 <= steps <= n ->
  exists et, expected_transitions P (Ok d) steps x = Ok et /\ sumn n (fun a => sumn n (fun b => mget et a b)) = qpow (Qcn 2) (steps - 1).
Proof. exact expected_transitions_total. Qed.
Print Assumptions C45_returned_total_partial.
Example C45_example : stochastic 3 pS /\ diagonalises 3 pS dS /\ distribution 3 (qv [1; 0; 0]%Q) /\
  showm (ok_or [] (expected_transitions pS (Ok dS) 4 (qv [1; 0; 0]%Q))) = [[5 # 4; 5 # 4; 0]; [3 # 4; 3 # 4; 0]; [0; 0; 0]]%Q /\
  showm (ok_or [] (expected_transitions pS (Ok dS) 2 (qv [1; 0; 0]%Q))) = [[3 # 4; 3 # 4; 0]; [1 # 4; 1 # 4; 0]; [0; 0; 0]]%Q.
Proof.
  split; [apply stochasticb_ok; vm_compute; reflexivity|]. split; [apply diagonalisesb_ok; vm_compute; reflexivity|].
  split; [apply distributionb_ok; vm_compute; reflexivity|]. split; vm_compute; reflexivity.
Qed.
Theorem C45_three_steps_refuted : exists n P d x et, 2 <= n /\ stochastic n P /\ diagonalises n P d /\ distribution n x /\ 3 <= n /\
  expected_transitions P (Ok d) 3 x = Ok et /\
  sumn n (fun a => sumn n (fun b => mget et a b)) <> Qcn 3 /\ mget et 0 0 <> expected_moves n P x 3 0 0.
Proof. exact expected_transitions_refuted. Qed.
Print Assumptions C45_three_steps_refuted.
Theorem C45_complex_eigenvalues_refuted : exists n P Rre Rim Dre Dim Lre Lim x et, stochastic n P /\ cdiagonalises n P Rre Rim Dre Dim Lre Lim /\
  distribution n x /\ expected_transitions P (Ok (mkrdl Rre Dre Lre)) (n + 2) x = Ok et /\ mget et 1 2 <> expected_moves n P x (n + 2) 1 2.
Proof. exact expected_transitions_complex_refuted. Qed.
Print Assumptions C45_complex_eigenvalues_refuted.

(** ** C46 first passage probabilities *)
Theorem C46_first_passage_probabilities : forall n P steps i, 0 < n -> wf n n P -> i < n -> 1 <= steps ->
  exists z, first_passage_probabilities P steps i = Ok z /\ wf steps n z /\
    forall k j, 1 <= k <= steps -> j < n -> mget z (k - 1) j = prob_paths n P k i (first_entry [j]).
Proof. exact fpp_spec. Qed.
Print Assumptions C46_first_passage_probabilities.
Example C46_example : wf 3 3 (ch_p cA) /\ showm (ok_or [] (first_passage_probabilities (ch_p cA) 4 0)) =
  [[1 # 2; 1 # 2; 0]; [0; 1 # 4; 1 # 2]; [1 # 2; 1 # 8; 1 # 4]; [0; 1 # 16; 1 # 8]]%Q.
Proof. split; [apply wfb_ok; vm_compute; reflexivity|vm_compute; reflexivity]. Qed.

(** ** C47 first passage probabilities of a set *)
Theorem C47_first_passage_one_state_partial : forall n P steps i s, 0 < n -> stochastic n P -> i < n -> 1 <= steps -> s < n ->
  exists z, first_passage_set_probabilities P steps i [s] = Ok z /\ length z = steps /\
    (forall k, 1 <= k <= steps -> vget z (k - 1) = prob_paths n P k i (first_entry [s])) /\
    (lsum z <= 1)%Qc.
Proof. exact fpp_singleton. Qed.
Print Assumptions C47_first_passage_one_state_partial.
Theorem C47_first_passage_set_partial : forall n P steps i S, 0 < n -> wf n n P -> i < n -> 1 <= steps -> (forall j, In j S -> j < n) ->
  exists z, first_passage_set_probabilities P steps i S = Ok z /\ length z = steps /\
    forall k, 1 <= k <= steps -> vget z (k - 1) = lsum (map (fun j => prob_paths n P k i (first_entry [j])) S).
Proof. exact fpp_set_sum. Qed.
Print Assumptions C47_first_passage_set_partial.
Example C47_example : stochastic 3 (ch_p cA) /\ showv (ok_or [] (first_passage_set_probabilities (ch_p cA) 4 0 [2])) = [0; 1 # 2; 1 # 4; 1 # 8]%Q.
Proof. split; [apply stochasticb_ok; vm_compute; reflexivity|vm_compute; reflexivity]. Qed.
Theorem C47_first_passage_set_refuted : exists n P i S z, stochastic n P /\ i < n /\ NoDup S /\ (forall x, In x S -> x < n) /\
  first_passage_set_probabilities P 2 i S = Ok z /\ vget z 1 <> prob_paths n P 2 i (first_entry S) /\ lsum z = Qcn 2.
Proof. exact fpp_set_refuted. Qed.
Print Assumptions C47_first_passage_set_refuted.

(** ** C48 first passage reward *)
Theorem C48_first_passage_reward : forall n P steps initial fps r, n <> 2 -> 0 < n -> wf n n P -> length r = n -> 1 <= steps -> initial < n ->
  ~ In initial fps -> length fps <> n - 1 ->
  first_passage_reward P steps initial fps r =
    Ok (sumn steps (fun k => exp_paths n P (k + 1) initial (fun w => if avoids fps w then vget r (path_end initial w) else 0q))).
Proof. exact fpr_spec. Qed.
Print Assumptions C48_first_passage_reward.
Example C48_example : wf 4 4 (ch_p cC) /\ Qceqb (ok_or 0q (first_passage_reward (ch_p cC) 2 1 [0; 2] (qv [1; 2; 3; 4]%Q))) (Q2Qc (6 # 1)) = true.
Proof. split; [apply wfb_ok; vm_compute; reflexivity|vm_compute; reflexivity]. Qed.

(** ** C49 absorption *)
Theorem C49_absorption_partial : forall n m, env_ok n m -> gap n (en_p m) ->
  (forall i, i < n -> exists a, a < n /\ mget (en_p m) a a = 1q /\ reach n (edge (en_p m)) i a) ->
  (exists i, i < n /\ mget (en_p m) i i <> 1q) ->
  exists T A N ap t, StronglySorted lt T /\ StronglySorted lt A /\
    (forall x, In x T <-> x < n /\ mget (en_p m) x x <> 1q) /\ (forall x, In x A <-> x < n /\ mget (en_p m) x x = 1q) /\
    fundamental_matrix m = Ok (Some N) /\ absorption_probabilities m = Ok (Some ap) /\ mean_absorption_times m = Ok (Some t) /\
    wf (length T) (length T) N /\ wf (length A) (length T) ap /\ length t = length T /\
    (forall k l, k < length T -> l < length T -> (0 <= mget N k l)%Qc /\
       mget N k l = (delta k l + sumn (length T) (fun c => mget (en_p m) (nth k T 0%nat) (nth c T 0%nat) * mget N c l))%Qc) /\
    (forall a k, a < length A -> k < length T -> (0 <= mget ap a k)%Qc /\
       mget ap a k = (mget (en_p m) (nth k T 0%nat) (nth a A 0%nat) + sumn (length T) (fun l => mget (en_p m) (nth k T 0%nat) (nth l T 0%nat) * mget ap a l))%Qc) /\
    (forall k, k < length T -> sumn (length A) (fun a => mget ap a k) = 1q) /\
    (forall k, k < length T -> (1 <= vget t k)%Qc /\
       vget t k = (1 + sumn (length T) (fun l => mget (en_p m) (nth k T 0%nat) (nth l T 0%nat) * vget t l))%Qc).
Proof. exact absorption_spec. Qed.
Print Assumptions C49_absorption_partial.
Example C49_example : env_ok 4 (env cD) /\ gap 4 (ch_p cD) /\ showm (some_or [] (absorption_probabilities (env cD))) = [[2 # 3; 1 # 3]; [1 # 3; 2 # 3]]%Q /\
  showv (some_or [] (mean_absorption_times (env cD))) = [2; 2]%Q.
Proof.
  split; [apply env_b; vm_compute; reflexivity|]. split; [|split; vm_compute; reflexivity].
  intros [|[|[|[|k]]]] Hk; [left|right|right|left|lia]; [apply Qceqb_eq|apply Qcleb_le|apply Qcleb_le|apply Qceqb_eq]; vm_compute; reflexivity.
Qed.
Theorem C49_nearly_absorbing_refuted : exists n m ap, env_ok n m /\
  (forall i, i < n -> exists a, a < n /\ mget (en_p m) a a = 1q /\ reach n (edge (en_p m)) i a) /\
  absorption_probabilities m = Ok (Some ap) /\ mget ap 0 0 = Q2Qc (199999 # 1).
Proof. exact absorption_refuted. Qed.
Print Assumptions C49_nearly_absorbing_refuted.

(** ** C50 committor probabilities *)
Theorem C50_committor_partial : forall n m (backward : bool) S1 S2, env_ok n m -> ergodic n (en_p m) -> S1 <> [] -> S2 <> [] ->
  (forall x, In x S1 -> x < n) -> (forall x, In x S2 -> x < n) -> (forall x, In x S1 -> ~ In x S2) ->
  exists pi x r, distribution n pi /\ stationary n (en_p m) pi /\
   (if backward then committor n (reversed (en_p m) pi) S2 S1 x else committor n (mget (en_p m)) S1 S2 x) /\
   (forall i, i < n -> (0 <= vget x i <= 1)%Qc) /\
   (forall y, (if backward then committor n (reversed (en_p m) pi) S2 S1 y else committor n (mget (en_p m)) S1 S2 y) -> y = x) /\
   committor_probabilities m backward S1 S2 = Ok (Some r) /\ length r = n /\
   forall i, i < n -> vget r i = if Qcleb (vget x i) (Q2Qc (1 # 100000000)) then 0q else vget x i.
Proof. exact committor_spec. Qed.
Print Assumptions C50_committor_partial.
Example C50_example : env_ok 3 (env cL) /\ ergodic 3 (ch_p cL) /\ showv (some_or [] (committor_probabilities (env cL) false [0] [2])) = [0; 1 # 2; 1]%Q /\
  showv (some_or [] (committor_probabilities (env cL) true [0] [2])) = [1; 2 # 5; 0]%Q.
Proof. split; [apply env_b; vm_compute; reflexivity|]. split; [apply ergodic_b; vm_compute; reflexivity|]. split; vm_compute; reflexivity. Qed.
Theorem C50_small_committor_refuted : exists n m S1 S2 r, env_ok n m /\ ergodic n (en_p m) /\ S1 = [0] /\ S2 = [2] /\
  committor_probabilities m false S1 S2 = Ok (Some r) /\ vget r 1 <> sumn n (fun j => mget (en_p m) 1 j * vget r j)%Qc.
Proof. exact committor_refuted. Qed.
Print Assumptions C50_small_committor_refuted.

(** ** C51 mean first passage times *)
Theorem C51_passage_times_to_targets : forall n m T, env_ok n m -> ergodic n (en_p m) -> T <> [] -> (forall x, In x T -> x < n) ->
  exists t, mfpt_to m T = Ok (Some t) /\ passage n (en_p m) T t /\
    (forall i, i < n -> ~ In i T -> (1 <= vget t i)%Qc) /\ (forall u, passage n (en_p m) T u -> u = t).
Proof. exact mfpt_to_spec. Qed.
Print Assumptions C51_passage_times_to_targets.
Theorem C51_passage_times_all_pairs : forall n m, env_ok n m -> ergodic n (en_p m) ->
  exists M, mfpt_all m = Ok (Some M) /\ wf n n M /\ (forall j, j < n -> mget M j j = 0q) /\
  (forall i j, i < n -> j < n -> i <> j -> mget M i j = (1 + sumn n (fun k => if Nat.eqb k j then 0 else mget (en_p m) i k * mget M k j))%Qc) /\
  (forall T t j, T = [j] -> j < n -> mfpt_to m T = Ok (Some t) -> forall i, i < n -> mget M i j = vget t i).
Proof. exact mfpt_all_spec. Qed.
Print Assumptions C51_passage_times_all_pairs.
Example C51_example : env_ok 3 (env cA) /\ ergodic 3 (ch_p cA) /\ showv (some_or [] (mfpt_to (env cA) [2])) = [3; 1; 0]%Q /\
  showm (some_or [] (mfpt_all (env cA))) = [[0; 2; 3]; [2; 0; 1]; [1; 3; 0]]%Q.
Proof. split; [apply env_b; vm_compute; reflexivity|]. split; [apply ergodic_b; vm_compute; reflexivity|]. split; vm_compute; reflexivity. Qed.

(** ** C52 mixing time *)
Theorem C52_mixing_time_partial : forall n m x jump cutoff, env_ok n m -> ergodic n (en_p m) -> distribution n x -> 1 <= jump -> (cutoff < 1)%Qc ->
  exists pi, stationary n (en_p m) pi /\ distribution n pi /\
  exists o, mixing_time m x jump cutoff = Ok o /\
  match o with
  | Some mt => exists t, 1 <= t <= 99 /\ mt = t * jump /\ (l1_after n (en_p m) x pi t <= cutoff)%Qc /\
                 forall s, 1 <= s < t -> (cutoff < l1_after n (en_p m) x pi s)%Qc
  | None => forall s, 1 <= s <= 99 -> (cutoff < l1_after n (en_p m) x pi s)%Qc
  end.
Proof. exact mixing_time_spec. Qed.
Print Assumptions C52_mixing_time_partial.
Theorem C52_not_ergodic : forall n m x jump cutoff, env_ok n m -> ~ ergodic n (en_p m) -> distribution n x -> 1 <= jump ->
  mixing_time m x jump cutoff = Ok None.
Proof. exact mixing_not_ergodic. Qed.
Print Assumptions C52_not_ergodic.
Example C52_example : env_ok 2 (env cS) /\ ergodic 2 (ch_p cS) /\ mixing_time (env cS) (qv [1; 0]%Q) 1 (Q2Qc (1 # 4)) = Ok (Some 2).
Proof. split; [apply env_b; vm_compute; reflexivity|]. split; [apply ergodic_b; vm_compute; reflexivity|]. vm_compute; reflexivity. Qed.
Theorem C52_jump_refuted : exists n m x pi mt, env_ok n m /\ ergodic n (en_p m) /\ distribution n x /\ distribution n pi /\ stationary n (en_p m) pi /\
  mixing_time m x 2 (Q2Qc (1 # 4)) = Ok (Some mt) /\ mt = 4 /\ (l1_after n (en_p m) x pi 2 <= Q2Qc (1 # 4))%Qc.
Proof. exact mixing_time_refuted. Qed.
Print Assumptions C52_jump_refuted.

(** ** C53 time correlations and relaxations *)
Theorem C53_time_correlations : forall n m d s1 s2 ts v, env_ok n m ->
  stationary_distributions (en_p m) (en_comps m) = Ok [v] -> StronglySorted lt ts -> ts <> [] -> last ts 0 <= n ->
  time_correlations m (Ok d) s1 s2 ts = Ok (Some (map (corr_at n (en_p m) v s1 (match s2 with None => s1 | Some s => s end)) ts)).
Proof. exact time_correlations_short. Qed.
Print Assumptions C53_time_correlations.
Theorem C53_time_relaxations : forall n m d s x ts v, env_ok n m ->
  stationary_distributions (en_p m) (en_comps m) = Ok [v] -> length x = n -> StronglySorted lt ts -> ts <> [] -> last ts 0 <= n ->
  time_relaxations m (Ok d) s x ts = Ok (Some (map (relax_at n (en_p m) x s) ts)).
Proof. exact time_relaxations_short. Qed.
Print Assumptions C53_time_relaxations.
Example C53_example : env_ok 2 (env cS) /\ length (ok_or [] (stationary_distributions (ch_p cS) (en_comps (env cS)))) = 1 /\
  showv (some_or [] (time_correlations (env cS) (Ok dT) [0; 1; 0] None [0; 1; 2])) = [5 # 2; 19 # 8; 37 # 16]%Q /\
  showv (some_or [] (time_relaxations (env cS) (Ok dT) [0; 1; 0] (qv [1; 0]%Q) [0; 1; 2])) = [2; 7 # 4; 13 # 8]%Q.
Proof. split; [apply env_b; vm_compute; reflexivity|]. repeat split; vm_compute; reflexivity. Qed.

(** ** C80 the same beyond the number of states *)
Theorem C80_long_time_correlations_partial : forall n m d s1 s2 ts v, env_ok n m ->
  stationary_distributions (en_p m) (en_comps m) = Ok [v] -> StronglySorted lt ts -> ts <> [] -> diagonalises n (en_p m) d ->
  time_correlations m (Ok d) s1 s2 ts = Ok (Some (map (corr_at n (en_p m) v s1 (match s2 with None => s1 | Some s => s end)) ts)).
Proof. exact time_correlations_long. Qed.
Print Assumptions C80_long_time_correlations_partial.
Theorem C80_long_time_relaxations_partial : forall n m d s x ts v, env_ok n m ->
  stationary_distributions (en_p m) (en_comps m) = Ok [v] -> length x = n -> StronglySorted lt ts -> ts <> [] -> diagonalises n (en_p m) d ->
  time_relaxations m (Ok d) s x ts = Ok (Some (map (relax_at n (en_p m) x s) ts)).
Proof. exact time_relaxations_long. Qed.
Print Assumptions C80_long_time_relaxations_partial.
Example C80_example : env_ok 2 (env cS) /\ diagonalises 2 (ch_p cS) dT /\
  showv (some_or [] (time_correlations (env cS) (Ok dT) [0; 1; 0] None [0; 1; 4])) = [5 # 2; 19 # 8; 145 # 64]%Q.
Proof. split; [apply env_b; vm_compute; reflexivity|]. split; [apply diagonalisesb_ok; vm_compute; reflexivity|]. vm_compute; reflexivity. Qed.
Theorem C80_complex_eigenvalues_refuted : exists n m Rre Rim Dre Dim Lre Lim x s ts v, env_ok n m /\ cdiagonalises n (en_p m) Rre Rim Dre Dim Lre Lim /\
  distribution n x /\ time_relaxations m (Ok (mkrdl Rre Dre Lre)) s x ts = Ok (Some [v]) /\ ts = [n + 1] /\ v <> relax_at n (en_p m) x s (n + 1).
Proof. exact time_relaxations_complex_refuted. Qed.
Print Assumptions C80_complex_eigenvalues_refuted.

(** ** C77 mean recurrence times *)
Theorem C77_mean_recurrence_times_partial : forall n m, env_ok n m -> ergodic n (en_p m) ->
  exists r pi, mean_recurrence_times m = Ok (Some r) /\ length r = n /\ distribution n pi /\ stationary n (en_p m) pi /\
  forall j, j < n -> if Qcleb (vget pi j) (Q2Qc (1 # 100000000)) then vget r j = 0q
    else exists t, passage n (en_p m) [j] t /\ vget r j = (1 + sumn n (fun k => if Nat.eqb k j then 0 else mget (en_p m) j k * vget t k))%Qc.
Proof. exact mean_recurrence_spec. Qed.
Print Assumptions C77_mean_recurrence_times_partial.
Example C77_example : env_ok 3 (env cA) /\ ergodic 3 (ch_p cA) /\ showv (some_or [] (mean_recurrence_times (env cA))) = [2; 4; 4]%Q.
Proof. split; [apply env_b; vm_compute; reflexivity|]. split; [apply ergodic_b; vm_compute; reflexivity|]. vm_compute; reflexivity. Qed.
Theorem C77_small_probability_refuted : exists n m r j, env_ok n m /\ ergodic n (en_p m) /\ j < n /\ mean_recurrence_times m = Ok (Some r) /\ vget r j = 0q.
Proof. exact recurrence_refuted. Qed.
Print Assumptions C77_small_probability_refuted.

(** ** C78 mean first passage time between sets *)
Theorem C78_passage_time_between : forall n m O T, env_ok n m -> ergodic n (en_p m) -> T <> [] -> (forall x, In x T -> x < n) -> O <> [] -> (forall x, In x O -> x < n) ->
  exists pi t, distribution n pi /\ stationary n (en_p m) pi /\ passage n (en_p m) T t /\
   mfpt_between m O T = Ok (Some (lsum (map (fun i => vget pi i * vget t i) O) / lsum (map (vget pi) O))%Qc).
Proof. exact mfpt_between_spec. Qed.
Print Assumptions C78_passage_time_between.
Example C78_example : env_ok 3 (env cA) /\ ergodic 3 (ch_p cA) /\ Qceqb (some_or 0q (mfpt_between (env cA) [0; 1] [2])) (Q2Qc (7 # 3)) = true.
Proof. split; [apply env_b; vm_compute; reflexivity|]. split; [apply ergodic_b; vm_compute; reflexivity|]. vm_compute; reflexivity. Qed.

(** ** C79 ergodicity *)
Theorem C79_is_ergodic : forall n m, env_ok n m -> exists b, is_ergodic m = Ok b /\ (b = true <-> ergodic n (en_p m)).
Proof. exact is_ergodic_spec. Qed.
Print Assumptions C79_is_ergodic.
Theorem C79_not_ergodic_none : forall n m, env_ok n m -> ~ ergodic n (en_p m) ->
  (forall b S1 S2, disjointb S1 S2 = true -> committor_probabilities m b S1 S2 = Ok None) /\ (forall T, mfpt_to m T = Ok None) /\ mfpt_all m = Ok None /\
  (forall O T, mfpt_between m O T = Ok None) /\ mean_recurrence_times m = Ok None.
Proof. exact not_ergodic_none. Qed.
Print Assumptions C79_not_ergodic_none.
Example C79_example : env_ok 3 (env cA) /\ is_ergodic (env cA) = Ok true /\ env_ok 4 (env cP) /\ is_ergodic (env cP) = Ok false.
Proof. split; [apply env_b; vm_compute; reflexivity|]. split; [vm_compute; reflexivity|]. split; [apply env_b; vm_compute; reflexivity|]. vm_compute; reflexivity. Qed.
