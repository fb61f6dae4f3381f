(** P_Spectral: property theorems about the quantities that are computed from eigenvalues. *)
From Verif Require Import M_Spectral S_Spectral L_Spectral3 L_Spectral4 L_Spectral5 L_MeasuresR L_Props ExL.
From Coq Require Import Reals Permutation Sorted.
Close Scope R_scope.
Open Scope nat_scope.
Open Scope res_scope.

(** ** C112 normalized entropy rate, with the eigenvalues of the adjacency matrix *)
Theorem C112_normalized_eigenvalues : forall n m ev, env_ok n m -> one_recurrent_class n (en_p m) -> spectrum n (marks (en_p m)) ev ->
  exists pi h r x, distribution n pi /\ stationary n (en_p m) pi /\ entropy_per_step n (en_p m) pi h /\ growth_rate n (en_p m) r /\
    (0 <= h <= ln r)%R /\ entropy_rate_normalized_ev m ev = Ok (Some x) /\
    ((1 / 100000000 < h)%R -> x = (h / ln r)%R) /\ ((h <= 1 / 100000000)%R -> x = 0%R).
Proof. exact normalized_value. Qed.
Print Assumptions C112_normalized_eigenvalues.
Example C112_eigenvalues_example : env_ok 2 (env cGold) /\ one_recurrent_class 2 (ch_p cGold) /\ spectrum 2 (marks (ch_p cGold)) [RtoC golden; RtoC (1 - golden)].
Proof. exact (conj gold_ok (conj gold_one gold_spectrum)). Qed.

(** ** C129 spectral gap, relaxation rate, mixing rate *)
Theorem C129_rates_partial : forall n m ev, env_ok n m -> ergodic n (en_p m) -> spectrum n (cmat_of (en_p m)) ev ->
  exists pi s, distribution n pi /\ stationary n (en_p m) pi /\ decay_rate n (en_p m) pi s /\ (s < 1)%R /\
    ((s <= 1 / 100000000)%R -> spectral_gap m ev = Ok None /\ relaxation_rate m ev = Ok None /\ mixing_rate m ev = Ok None) /\
    ((1 / 100000000 < s < 1 - 1001 / 100000000)%R ->
       spectral_gap m ev = Ok (Some (1 - s)%R) /\ relaxation_rate m ev = Ok (Some (1 / (1 - s))%R) /\
       exists t, mixing_rate m ev = Ok (Some t) /\ (0 < t)%R /\ exp (- (1 / t)) = s).
Proof. exact gap_value. Qed.
Print Assumptions C129_rates_partial.
Theorem C129_never_understated_partial : forall n m ev pi s g, env_ok n m -> ergodic n (en_p m) -> spectrum n (cmat_of (en_p m)) ev ->
  distribution n pi -> stationary n (en_p m) pi -> decay_rate n (en_p m) pi s -> spectral_gap m ev = Ok (Some g) -> (1 - s <= g < 1)%R.
Proof. exact gap_upper. Qed.
Print Assumptions C129_never_understated_partial.
Theorem C129_not_ergodic : forall n m ev, env_ok n m -> ~ ergodic n (en_p m) ->
  spectral_gap m ev = Ok None /\ relaxation_rate m ev = Ok None /\ mixing_rate m ev = Ok None /\ implied_timescales m ev = Ok None.
Proof. exact gap_none. Qed.
Print Assumptions C129_not_ergodic.
Theorem C129_slow_refuted : exists n m ev pi s g, env_ok n m /\ ergodic n (en_p m) /\ spectrum n (cmat_of (en_p m)) ev /\
  distribution n pi /\ stationary n (en_p m) pi /\ decay_rate n (en_p m) pi s /\ spectral_gap m ev = Ok (Some g) /\ (100000 * (1 - s) < g)%R.
Proof. exact gap_refuted. Qed.
Print Assumptions C129_slow_refuted.
Theorem C129_raises_refuted : exists n m ev, env_ok n m /\ ergodic n (en_p m) /\ spectrum n (cmat_of (en_p m)) ev /\
  spectral_gap m ev = Err IndexErr /\ relaxation_rate m ev = Err IndexErr /\ mixing_rate m ev = Err IndexErr.
Proof. exact gap_raises. Qed.
Print Assumptions C129_raises_refuted.
Example C129_example : env_ok 2 (env cHalf) /\ ergodic 2 (ch_p cHalf) /\ spectrum 2 (cmat_of (ch_p cHalf)) [oneC; RtoC (/ 4)] /\
  spectral_gap (env cHalf) [oneC; RtoC (/ 4)] = Ok (Some (3 / 4)%R).
Proof. exact (conj half_ok (conj half_ergodic (conj half_spectrum half_gap))). Qed.
Example C129_complex_example : env_ok 3 (env cTri) /\ ergodic 3 (ch_p cTri) /\ spectrum 3 (cmat_of (ch_p cTri)) [oneC; (1 / 4, sqrt 3 / 4)%R; (1 / 4, - (sqrt 3 / 4))%R].
Proof. exact (conj tri_ok (conj tri_ergodic tri_spectrum)). Qed.
Example C129_not_example : env_ok 2 (env cSwap) /\ ~ ergodic 2 (ch_p cSwap).
Proof. exact (conj swap_ok swap_not). Qed.

(** ** C130 implied timescales *)
Theorem C130_timescales : forall n m ev, env_ok n m -> ergodic n (en_p m) -> spectrum n (cmat_of (en_p m)) ev ->
  exists pi s mu ts, distribution n pi /\ stationary n (en_p m) pi /\ decay_rate n (en_p m) pi s /\
    Permutation (map cmod ev) (1%R :: s :: mu) /\ StronglySorted Rge (s :: mu) /\ (s < 1)%R /\
    implied_timescales m ev = Ok (Some (Finf :: ts)) /\ Forall2 is_timescale (s :: mu) ts.
Proof. exact timescales_value. Qed.
Print Assumptions C130_timescales.
Example C130_example : env_ok 3 (env cTri) /\ ergodic 3 (ch_p cTri) /\ spectrum 3 (cmat_of (ch_p cTri)) [oneC; (1 / 4, sqrt 3 / 4)%R; (1 / 4, - (sqrt 3 / 4))%R].
Proof. exact (conj tri_ok (conj tri_ergodic tri_spectrum)). Qed.

(** ** C131 topological entropy *)
Theorem C131_topological_entropy : forall n P ev, 0 < n -> stochastic n P -> spectrum n (marks P) ev ->
  exists r, growth_rate n P r /\ (1 <= r <= INR n)%R /\ topological_entropy ev = Ok (ln r).
Proof. exact topological_prop. Qed.
Print Assumptions C131_topological_entropy.
Example C131_example : stochastic 2 (ch_p cGold) /\ spectrum 2 (marks (ch_p cGold)) [RtoC golden; RtoC (1 - golden)] /\
  map (paths 2 (ch_p cGold)) [1; 2; 3; 4; 5; 6] = [2; 3; 5; 8; 13; 21].
Proof. exact (conj (proj1 (proj2 gold_ok)) (conj gold_spectrum gold_paths)). Qed.
