(** P_EigPlot: C174 (the plot of the eigenvalues). *)
From Verif Require Import S_EigPlot L_Spectral5 L_EigPlot M_HmmMore L_Query2.
From Coq Require Import Reals.
Close Scope Q_scope. Close Scope R_scope.
Open Scope nat_scope.

(** ** C174 the plot of the eigenvalues *)
Theorem C174_points_partial : forall n m ev, env_ok n m -> spectrum n (cmat_of (en_p m)) ev ->
  exists points r, plot_eigenvalues_mc m ev = Ok (points, r) /\ NoDup points /\ (forall z, In z points <-> eigenvalue n (cmat_of (en_p m)) z) /\
    (forall z, In z points -> (cmod z <= 1)%R) /\ (~ ergodic n (en_p m) -> r = None) /\ (forall mu, r = Some mu <-> spectral_gap m ev = Ok (Some (1 - mu)%R)).
Proof. exact eig_mc. Qed.
Print Assumptions C174_points_partial.
Theorem C174_ring_partial : forall n m ev, env_ok n m -> ergodic n (en_p m) -> spectrum n (cmat_of (en_p m)) ev ->
  exists pi s points r, distribution n pi /\ stationary n (en_p m) pi /\ decay_rate n (en_p m) pi s /\ (s < 1)%R /\ plot_eigenvalues_mc m ev = Ok (points, r) /\
    ((s <= 1 / 100000000)%R -> r = None) /\ ((1 / 100000000 < s < 1 - 1001 / 100000000)%R -> r = Some s).
Proof. exact eig_ring. Qed.
Print Assumptions C174_ring_partial.
Theorem C174_slow_refuted : exists n m ev pi s mu points, env_ok n m /\ ergodic n (en_p m) /\ spectrum n (cmat_of (en_p m)) ev /\
  distribution n pi /\ stationary n (en_p m) pi /\ decay_rate n (en_p m) pi s /\ plot_eigenvalues_mc m ev = Ok (points, Some mu) /\ (100000 * (1 - s) < 1 - mu)%R.
Proof. exact eig_slow_refuted. Qed.
Print Assumptions C174_slow_refuted.
Theorem C174_no_ring_refuted : exists n m ev pi s points, env_ok n m /\ ergodic n (en_p m) /\ spectrum n (cmat_of (en_p m)) ev /\
  distribution n pi /\ stationary n (en_p m) pi /\ decay_rate n (en_p m) pi s /\ (99 / 100 < s < 1)%R /\ plot_eigenvalues_mc m ev = Ok (points, None).
Proof. exact eig_none_refuted. Qed.
Print Assumptions C174_no_ring_refuted.
Theorem C174_hmm_partial : forall n k h nx ev, 2 <= n -> 0 < k -> stochastic n (h_p h) -> row_stochastic n k (h_e h) -> names_ok n (h_states h) -> nx_ok n (h_p h) nx ->
  plot_eigenvalues_hmm h nx ev = plot_eigenvalues_mc (mkenv (h_p h) (h_states h) nx true) ev /\ env_ok n (mkenv (h_p h) (h_states h) nx true).
Proof. exact eig_hmm. Qed.
Print Assumptions C174_hmm_partial.
Theorem C174_one_state_refuted : forall n k h i h' nx ev, 1 < n -> 1 < k -> stochastic n (h_p h) -> row_stochastic n k (h_e h) -> restrict h (Some (SelOne i)) None = Ok h' ->
  plot_eigenvalues_hmm h' nx ev = Err ValueErr.
Proof. exact eig_hmm_one. Qed.
Print Assumptions C174_one_state_refuted.
Example C174_example : env_ok 2 (env cHalf) /\ ergodic 2 (ch_p cHalf) /\ spectrum 2 (cmat_of (ch_p cHalf)) [oneC; RtoC (/ 4)] /\
  (exists points, plot_eigenvalues_mc (env cHalf) [oneC; RtoC (/ 4)] = Ok (points, Some (/ 4)%R) /\ forall z, In z points <-> z = oneC \/ z = RtoC (/ 4)) /\
  stochastic 2 (h_p q_hmm1) /\ row_stochastic 2 2 (h_e q_hmm1) /\ (exists h', restrict q_hmm1 (Some (SelOne 1)) None = Ok h').
Proof.
  split; [exact half_ok|]. split; [exact half_ergodic|]. split; [exact half_spectrum|]. split; [exact eig_half|].
  split; [apply stochasticb_ok; vm_compute; reflexivity|]. split; [apply row_stochasticb_ok; vm_compute; reflexivity|]. eexists. vm_compute. reflexivity.
Qed.
