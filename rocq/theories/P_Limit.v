(** P_Limit: property theorems that describe the measures as limits of probabilities and
    expectations over the paths of the chain. *)
From Verif Require Import L_LimitR.
Open Scope res_scope.

(** ** C49 absorption *)
Theorem C49_absorption_limits_partial : forall n m, env_ok n m -> gap n (en_p m) ->
  (forall i, i < n -> exists a, a < n /\ mget (en_p m) a a = 1q /\ reach n (edge (en_p m)) i a) ->
  (exists i, i < n /\ mget (en_p m) i i <> 1q) ->
  exists T A N ap t, StronglySorted lt T /\ StronglySorted lt A /\
    (forall x, In x T <-> x < n /\ mget (en_p m) x x <> 1q) /\ (forall x, In x A <-> x < n /\ mget (en_p m) x x = 1q) /\
    fundamental_matrix m = Ok (Some N) /\ absorption_probabilities m = Ok (Some ap) /\ mean_absorption_times m = Ok (Some t) /\
    (forall a b, a < length T -> b < length T -> tends (fun k => visits_by n (en_p m) k (nth a T 0) (nth b T 0)) (mget N a b)) /\
    (forall a b, a < length A -> b < length T -> tends (fun k => kstep n (en_p m) k (nth b T 0) (nth a A 0)) (mget ap a b)) /\
    (forall b, b < length T -> tends (fun k => mean_hit_by n (en_p m) A k (nth b T 0)) (vget t b)).
Proof. exact absorption_limits. Qed.
Print Assumptions C49_absorption_limits_partial.
Example C49_limits_example : env_ok 4 (env cD) /\ gap 4 (ch_p cD) /\ showm (some_or [] (fundamental_matrix (env cD))) = [[4 # 3; 2 # 3]; [2 # 3; 4 # 3]]%Q.
Proof.
  split; [apply env_b; vm_compute; reflexivity|]. split; [|vm_compute; reflexivity].
  intros [|[|[|[|k]]]] Hk; [left|right|right|left|lia]; [apply Qceqb_eq|apply Qcleb_le|apply Qcleb_le|apply Qceqb_eq]; vm_compute; reflexivity.
Qed.

(** ** C50 committor probabilities *)
Theorem C50_committor_limits_partial : forall n m (backward : bool) S1 S2, env_ok n m -> ergodic n (en_p m) -> S1 <> [] -> S2 <> [] ->
  (forall x, In x S1 -> x < n) -> (forall x, In x S2 -> x < n) -> (forall x, In x S1 -> ~ In x S2) ->
  exists pi x r, distribution n pi /\ stationary n (en_p m) pi /\
   committor_probabilities m backward S1 S2 = Ok (Some r) /\ length r = n /\
   forall i, i < n ->
    tends (fun k => if backward then before_by n (mk n n (reversed (en_p m) pi)) S2 S1 k i else before_by n (en_p m) S1 S2 k i) (vget x i) /\
    vget r i = if Qcleb (vget x i) (Q2Qc (1 # 100000000)) then 0q else vget x i.
Proof. exact committor_limit. Qed.
Print Assumptions C50_committor_limits_partial.
Example C50_limits_example : env_ok 3 (env cL) /\ ergodic 3 (ch_p cL) /\ showv (some_or [] (committor_probabilities (env cL) false [0] [2])) = [0; 1 # 2; 1]%Q.
Proof. split; [apply env_b; vm_compute; reflexivity|]. split; [apply ergodic_b; vm_compute; reflexivity|]. vm_compute; reflexivity. Qed.

(** ** C51 mean first passage times *)
Theorem C51_passage_times_limit : forall n m T, env_ok n m -> ergodic n (en_p m) -> T <> [] -> (forall x, In x T -> x < n) ->
  exists t, mfpt_to m T = Ok (Some t) /\ length t = n /\ forall i, i < n -> tends (fun k => mean_hit_by n (en_p m) T k i) (vget t i).
Proof. exact mfpt_to_limit. Qed.
Print Assumptions C51_passage_times_limit.
Theorem C51_all_pairs_limit : forall n m, env_ok n m -> ergodic n (en_p m) ->
  exists M, mfpt_all m = Ok (Some M) /\ wf n n M /\ forall i j, i < n -> j < n -> tends (fun k => mean_hit_by n (en_p m) [j] k i) (mget M i j).
Proof. exact mfpt_all_limit. Qed.
Print Assumptions C51_all_pairs_limit.
Example C51_limit_example : env_ok 3 (env cA) /\ ergodic 3 (ch_p cA) /\ showv (some_or [] (mfpt_to (env cA) [2])) = [3; 1; 0]%Q /\
  showv (tab 4 (fun k => mean_hit_by 3 (ch_p cA) [2] k 0)) = [0; 1; 2; 5 # 2]%Q.
Proof. split; [apply env_b; vm_compute; reflexivity|]. split; [apply ergodic_b; vm_compute; reflexivity|]. split; vm_compute; reflexivity. Qed.

(** ** C52 mixing time *)
Theorem C52_mixing_time_exists_refuted : exists n m x pi, env_ok n m /\ ergodic n (en_p m) /\ distribution n x /\ distribution n pi /\ stationary n (en_p m) pi /\
  mixing_time m x 1 (Q2Qc (1 # 10)) = Ok None /\ exists t, forall s, t <= s -> (l1_after n (en_p m) x pi s <= Q2Qc (1 # 10))%Qc.
Proof. exact mixing_none_refuted. Qed.
Print Assumptions C52_mixing_time_exists_refuted.

(** ** C77 mean recurrence times *)
Theorem C77_mean_recurrence_limit_partial : forall n m, env_ok n m -> ergodic n (en_p m) ->
  exists r pi, mean_recurrence_times m = Ok (Some r) /\ length r = n /\ distribution n pi /\ stationary n (en_p m) pi /\
  forall j, j < n -> (Q2Qc (1 # 100000000) < vget pi j)%Qc -> tends (fun k => mean_return_by n (en_p m) k j) (vget r j).
Proof. exact recurrence_limit. Qed.
Print Assumptions C77_mean_recurrence_limit_partial.
Example C77_limit_example : env_ok 3 (env cA) /\ ergodic 3 (ch_p cA) /\ showv (some_or [] (mean_recurrence_times (env cA))) = [2; 4; 4]%Q.
Proof. split; [apply env_b; vm_compute; reflexivity|]. split; [apply ergodic_b; vm_compute; reflexivity|]. vm_compute; reflexivity. Qed.

(** ** C78 mean first passage time between sets *)
Theorem C78_passage_time_between_limit : forall n m O T, env_ok n m -> ergodic n (en_p m) -> T <> [] -> (forall x, In x T -> x < n) -> O <> [] -> (forall x, In x O -> x < n) ->
  exists pi v, distribution n pi /\ stationary n (en_p m) pi /\ mfpt_between m O T = Ok (Some v) /\
   tends (fun k => lsum (map (fun i => vget pi i * mean_hit_by n (en_p m) T k i) O) / lsum (map (vget pi) O))%Qc v.
Proof. exact mfpt_between_limit. Qed.
Print Assumptions C78_passage_time_between_limit.
Example C78_limit_example : env_ok 3 (env cA) /\ ergodic 3 (ch_p cA) /\ Qceqb (some_or 0q (mfpt_between (env cA) [0; 1] [2])) (Q2Qc (7 # 3)) = true.
Proof. split; [apply env_b; vm_compute; reflexivity|]. split; [apply ergodic_b; vm_compute; reflexivity|]. vm_compute; reflexivity. Qed.

(** ** C79 ergodicity and regularity *)
Theorem C79_ergodic_iff_regular : forall n m, env_ok n m -> is_ergodic m = Ok (is_regular (en_p m)).
Proof. exact ergodic_is_regular. Qed.
Print Assumptions C79_ergodic_iff_regular.
Example C79_regular_example : env_ok 3 (env cA) /\ is_regular (ch_p cA) = true /\ env_ok 2 (env cSwap) /\ is_regular (ch_p cSwap) = false.
Proof. split; [apply env_b; vm_compute; reflexivity|]. split; [vm_compute; reflexivity|]. split; [apply env_b; vm_compute; reflexivity|]. vm_compute; reflexivity. Qed.

(** ** C102 hitting probabilities *)
Theorem C102_hitting_probabilities : forall nnls n P T, nnls_basic nnls -> stochastic n P -> NoDup T -> (forall x, In x T -> x < n) ->
  exists hp, hitting_probabilities nnls P T = Ok hp /\ length hp = n /\ forall i, i < n -> tends (fun k => hit_by n P T k i) (vget hp i).
Proof. exact hitting_probabilities_spec. Qed.
Print Assumptions C102_hitting_probabilities.
Theorem C102_hitting_probabilities_any_solver : forall nnls n P T, nnls_ok nnls -> stochastic n P -> NoDup T -> (forall x, In x T -> x < n) ->
  (forall i, i < n -> exists b, In b T /\ reach n (edge P) i b) ->
  exists hp, hitting_probabilities nnls P T = Ok hp /\ length hp = n /\ forall i, i < n -> tends (fun k => hit_by n P T k i) (vget hp i).
Proof. exact hitting_probabilities_ok. Qed.
Print Assumptions C102_hitting_probabilities_any_solver.
Example C102_example : nnls_basic nnls_search /\ nnls_ok nnls_search /\ stochastic 3 (ch_p cV3) /\
  showv (ok_or [] (hitting_probabilities nnls_search (ch_p cV3) [0])) = [1; 1 # 2; 0]%Q.
Proof.
  split; [apply nnls_search_basic|]. split; [apply basic_ok, nnls_search_basic|]. split; [apply stochasticb_ok; vm_compute; reflexivity|]. vm_compute; reflexivity.
Qed.

(** ** C103 hitting times *)
Theorem C103_hitting_times : forall nnls n P T, nnls_basic nnls -> stochastic n P -> NoDup T -> (forall x, In x T -> x < n) ->
  exists l, hitting_times nnls P T = Ok l /\ length l = n /\
  forall i, i < n -> exists h, tends (fun k => hit_by n P T k i) h /\
    match nth i l None with
    | Some v => h = 1q /\ tends (fun k => mean_hit_by n P T k i) v
    | None => (h < 1)%Qc /\ grows (fun k => mean_hit_by n P T k i)
    end.
Proof. exact hitting_times_spec. Qed.
Print Assumptions C103_hitting_times.
Example C103_example : nnls_basic nnls_search /\ stochastic 3 (ch_p cV3) /\
  map showo (ok_or [] (hitting_times nnls_search (ch_p cV3) [0])) = [Some 0; None; None]%Q /\
  map showo (ok_or [] (hitting_times nnls_search (ch_p cV3) [0; 2])) = [Some 0; Some 2; Some 0]%Q.
Proof.
  split; [apply nnls_search_basic|]. split; [apply stochasticb_ok; vm_compute; reflexivity|]. split; vm_compute; reflexivity.
Qed.

(** ** C104 mean number of visits *)
Theorem C104_mean_number_visits_partial : forall n m, env_ok n m -> exists M, mean_number_visits m = Ok M /\ length M = n /\ (forall i, i < n -> length (nth i M []) = n) /\
  forall i j, i < n -> j < n -> exists fi fj, tends (fun k => return_by n (en_p m) k i j) fi /\ tends (fun k => return_by n (en_p m) k j j) fj /\
    ((fi = 0q \/ (atol < fi)%Qc) -> (fj = 1q \/ (fj <= 1 - Q2Qc (2 # 100000))%Qc) ->
     match nth j (nth i M []) None with
     | Some v => tends (fun k => visits_after n (en_p m) k i j) v
     | None => grows (fun k => visits_after n (en_p m) k i j)
     end) /\
    nth j (nth i M []) None = if Qcleb fi atol then Some 0q else if isclose fj 1 then None else Some (fi / (1 - fj))%Qc.
Proof. exact mean_number_visits_spec. Qed.
Print Assumptions C104_mean_number_visits_partial.
Example C104_example : env_ok 3 (env cV3) /\ map (map showo) (ok_or [] (mean_number_visits (env cV3))) = [[None; Some 0; Some 0]; [None; Some 1; None]; [Some 0; Some 0; None]]%Q.
Proof. split; [apply env_b; vm_compute; reflexivity|]. vm_compute; reflexivity. Qed.
Theorem C104_finite_reported_infinite_refuted : exists n m M v, env_ok n m /\ mean_number_visits m = Ok M /\ nth 0 (nth 0 M []) (Some 0q) = None /\
  tends (fun k => visits_after n (en_p m) k 0 0) v.
Proof. exact visits_inf_refuted. Qed.
Print Assumptions C104_finite_reported_infinite_refuted.
Theorem C104_infinite_reported_zero_refuted : exists n m M, env_ok n m /\ mean_number_visits m = Ok M /\ nth 1 (nth 0 M []) None = Some 0q /\
  grows (fun k => visits_after n (en_p m) k 0 1).
Proof. exact visits_zero_refuted. Qed.
Print Assumptions C104_infinite_reported_zero_refuted.

(** ** C105 convergence to the stationary distribution *)
Theorem C105_redistribute_converges : forall n m x, env_ok n m -> ergodic n (en_p m) -> distribution n x ->
  exists pi, stationary_distributions (en_p m) (en_comps m) = Ok [pi] /\ length pi = n /\
  forall eps, (0 < eps)%Qc -> exists N, forall steps, N <= steps -> exists y, redistribute_last (en_p m) steps x = Ok y /\
    forall j, j < n -> (Qcabs (vget y j - vget pi j) < eps)%Qc.
Proof. exact redistribute_tends. Qed.
Print Assumptions C105_redistribute_converges.
Theorem C105_transition_probabilities_converge : forall n P pi, 2 <= n -> stochastic n P -> ergodic n P -> distribution n pi -> stationary n P pi ->
  forall i j, i < n -> j < n -> tends (fun k => kstep n P k i j) (vget pi j).
Proof. exact ergodic_tends. Qed.
Print Assumptions C105_transition_probabilities_converge.
Theorem C105_time_average : forall n m pi, env_ok n m -> irreducible n (edge (en_p m)) -> distribution n pi -> stationary n (en_p m) pi ->
  forall i j, i < n -> j < n -> tends (fun k => visits_by n (en_p m) k i j / Qcn k)%Qc (vget pi j).
Proof. exact average_tends. Qed.
Print Assumptions C105_time_average.
Example C105_example : env_ok 3 (env cA) /\ ergodic 3 (ch_p cA) /\ distribution 3 (qv [0; 1; 0]%Q) /\
  map showv (ok_or [] (stationary_distributions (ch_p cA) (en_comps (env cA)))) = [[1 # 2; 1 # 4; 1 # 4]]%Q /\
  showv (ok_or [] (redistribute_last (ch_p cA) 4 (qv [0; 1; 0]%Q))) = [1 # 4; 1 # 4; 1 # 2]%Q.
Proof. split; [apply env_b; vm_compute; reflexivity|]. split; [apply ergodic_b; vm_compute; reflexivity|]. split; [apply distributionb_ok; vm_compute; reflexivity|]. split; vm_compute; reflexivity. Qed.
