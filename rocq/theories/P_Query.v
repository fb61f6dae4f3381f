(** P_Query: C172 (questions about single states and moves) and C173 (printed summaries). *)
From Verif Require Import S_Query L_Query L_Query2.
Open Scope nat_scope.

(** ** C172 questions about single states *)
Theorem C172_states : forall n m v k, env_ok n m -> (forall s, In s (en_names m) -> nonblank s = true) -> designates1 (en_names m) v k ->
  exists r t c a, is_recurrent_state m v = Ok r /\ is_transient_state m v = Ok t /\ is_cyclic_state m v = Ok c /\ is_absorbing_state m v = Ok a /\
    (r = true <-> recurrent n (edge (en_p m)) k) /\ t = negb r /\ (c = true <-> irreducible n (edge (en_p m))) /\
    (a = true <-> within (mget (en_p m) k k) 1q).
Proof. exact q_states_spec. Qed.
Print Assumptions C172_states.
Theorem C172_rejected : forall n m v, env_ok n m -> (forall s, In s (en_names m) -> nonblank s = true) -> (forall k, ~ designates1 (en_names m) v k) ->
  exists e, is_recurrent_state m v = Err e /\ is_transient_state m v = Err e /\ is_cyclic_state m v = Err e /\ is_absorbing_state m v = Err e.
Proof. exact q_reject. Qed.
Print Assumptions C172_rejected.
Theorem C172_moves : forall p names target origin x, labels_ok names ->
  (probability_of_move p names target origin = Ok x <-> exists t o, designates1 names target t /\ designates1 names origin o /\ x = mget p o t).
Proof. exact q_move. Qed.
Print Assumptions C172_moves.
Theorem C172_emissions : forall h symbol state x, labels_ok (h_states h) -> labels_ok (h_symbols h) ->
  (emission_probability h symbol state = Ok x <-> exists y s, designates1 (h_symbols h) symbol y /\ designates1 (h_states h) state s /\ x = mget (h_e h) s y).
Proof. exact q_emission. Qed.
Print Assumptions C172_emissions.
Example C172_example : env_ok 4 q_env /\ designates1 (en_names q_env) (PStr "a") 2 /\ is_recurrent_state q_env (PStr "a") = Ok true /\ is_recurrent_state q_env (PInt 0) = Ok false /\
  is_transient_state q_env (PStr "c") = Ok true /\ is_cyclic_state q_env (PStr "a") = Ok false /\ is_absorbing_state q_env (PInt 3) = Ok false /\ is_recurrent_state q_env (PInt 4) = Err ValueErr /\
  probability_of_move q_p q_names (PStr "a") (PInt 1) = Ok (Q2Qc (1 # 2)) /\ emission_probability q_hmm1 (PStr "v") (PStr "A") = Ok (Q2Qc (2 # 3)).
Proof.
  split; [exact q_env_ok|]. split; [split; [cbn; lia|right; exists "a"%string; split; reflexivity]|].
  repeat (split; [vm_compute; reflexivity|]). split; vm_compute; f_equal; apply Qc_is_canon; reflexivity.
Qed.

(** ** C173 printed summaries *)
Theorem C173_chain_partial : forall n m, env_ok n m -> exists rk rcs tcs e a d ir ab mo rg rv sy,
  mc_str m = Ok (printed (chain_lines n rk (length rcs) (length tcs) e a d ir ab mo rg rv sy)) /\
  is_rank n n (mget (en_p m)) rk /\ classes_of n (edge (en_p m)) rcs tcs /\
  (e = true <-> ergodic n (en_p m)) /\
  (irreducible n (edge (en_p m)) -> (1 <= d)%Z /\ (forall x, x < n -> period_of n (edge (en_p m)) x d) /\ a = Z.eqb d 1) /\
  (ir = true <-> irreducible n (edge (en_p m))) /\
  (ab = true <-> forall i, i < n -> exists j, j < n /\ within (mget (en_p m) j j) 1q /\ reach n (edge (en_p m)) i j) /\
  (mo = true <-> forall i k, i < k -> k < n -> dominated n (en_p m) i k) /\
  (rg = true <-> regular n (en_p m)) /\
  (rv = true <-> one_recurrent_class n (en_p m) /\
     forall pi, distribution n pi -> stationary n (en_p m) pi -> forall i j, i < n -> j < n -> within (S_Props.flow (en_p m) pi i j) (S_Props.flow (en_p m) pi j i)) /\
  (sy = true <-> forall i j, i < n -> j < n -> within (mget (en_p m) i j) (mget (en_p m) j i)).
Proof. exact q_chain. Qed.
Print Assumptions C173_chain_partial.
Theorem C173_hmm_partial : forall n k h nx, 2 <= n -> 0 < k -> stochastic n (h_p h) -> row_stochastic n k (h_e h) -> names_ok n (h_states h) -> length (h_symbols h) = k -> nx_ok n (h_p h) nx ->
  exists e, hmm_str h nx = Ok (printed (hmm_lines n k e (hmm_is_regular n k (h_e h)))) /\ (e = true <-> exists s, mixes n k (h_p h) (h_e h) s).
Proof. exact q_hmm. Qed.
Print Assumptions C173_hmm_partial.
Theorem C173_period_one_refuted : exists n m, env_ok n m /\ nx_aperiodic_doc n (edge (en_p m)) (en_nxa m) /\ (forall x, x < n -> period_of n (edge (en_p m)) x 2) /\
  mc_str m = Ok (printed (chain_lines 4 4 1 1 false false 1 false false false false true false)).
Proof. exact q_period_one_refuted. Qed.
Print Assumptions C173_period_one_refuted.
Theorem C173_one_state_refuted : forall n k h i h' nx, 1 < n -> 1 < k -> stochastic n (h_p h) -> row_stochastic n k (h_e h) -> restrict h (Some (SelOne i)) None = Ok h' -> hmm_str h' nx = Err ValueErr.
Proof. exact q_hmm_one. Qed.
Print Assumptions C173_one_state_refuted.
Example C173_example : env_ok 4 q_env /\ (exists h', restrict q_hmm1 (Some (SelOne 1)) None = Ok h' /\ hmm_str h' (nx_default (h_p h')) = Err ValueErr) /\
  stochastic 2 (h_p q_hmm1) /\ row_stochastic 2 2 (h_e q_hmm1) /\ hmm_str q_hmm1 (nx_default (h_p q_hmm1)) = Ok (printed (hmm_lines 2 2 true true)).
Proof.
  split; [exact q_env_ok|]. split; [eexists; split; [vm_compute; reflexivity|vm_compute; reflexivity]|].
  split; [apply stochasticb_ok; vm_compute; reflexivity|]. split; [apply row_stochasticb_ok; vm_compute; reflexivity|]. vm_compute. reflexivity.
Qed.
