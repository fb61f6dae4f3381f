(** P_Simulation: property theorems about simulation, prediction and sequence probabilities. *)
From Verif Require Import L_Simulation ExS.
From Coq Require Import Reals.
Close Scope R_scope.
Open Scope nat_scope.
Open Scope res_scope.

(** ** C54 simulate *)
Theorem C54_simulate : forall n P steps init final r u, 0 < n -> stochastic n P -> unit_draws u -> 2 <= steps ->
  (forall i, init = Some i -> i < n) -> (forall f, final = Some f -> f < n) ->
  exists w, simulate P steps init final r u = Ok w /\ possible_walk n P w /\ 2 <= length w <= steps + 1 /\
    (forall i, init = Some i -> nth 0 w 0 = i) /\ stops_at steps final w /\
    forall q, S q < length w -> in_slot P (nth q w 0) (nth (S q) w 0) (u q).
Proof. exact simulate_spec. Qed.
Print Assumptions C54_simulate.
Theorem C54_next : forall n P i u, stochastic n P -> unit_draws u -> i < n ->
  exists s, next P i u = Ok s /\ s < n /\ edge P i s /\ in_slot P i s (u 0).
Proof. exact next_spec. Qed.
Print Assumptions C54_next.
Example C54_example : stochastic 3 (ch_p cA) /\ unit_draws drawsA /\
  simulate (ch_p cA) 4 (Some 1) None 0 drawsA = Ok [1; 2; 0; 1; 2] /\
  simulate (ch_p cA) 4 (Some 1) (Some 0) 0 drawsA = Ok [1; 2; 0] /\
  simulate (ch_p cA) 3 None None 7 drawsA = Ok [1; 2; 0; 1] /\ next (ch_p cA) 0 drawsA = Ok 0.
Proof.
  split; [apply stochasticb_ok; vm_compute; reflexivity|]. split.
  - intros t. do 5 (destruct t as [|t]; [split; [discriminate|reflexivity]|]). destruct t; split; [discriminate|reflexivity|discriminate|reflexivity].
  - repeat split; vm_compute; reflexivity.
Qed.

(** ** C81 the law of the simulated walk *)
Theorem C81_simulate_iff_slots : forall n P steps i r u w, stochastic n P -> unit_draws u -> 2 <= steps -> i < n ->
  length w = steps -> (forall k, k < steps -> nth k w 0 < n) ->
  (simulate P steps (Some i) None r u = Ok (i :: w) <->
   forall q, q < steps -> in_slot P (nth q (i :: w) 0) (nth (S q) (i :: w) 0) (u q)).
Proof. exact simulate_iff. Qed.
Print Assumptions C81_simulate_iff_slots.
Theorem C81_every_walk_possible : forall n P steps i w, stochastic n P -> 2 <= steps -> i < n -> length w = steps ->
  possible_walk n P (i :: w) -> exists u, unit_draws u /\ forall r, simulate P steps (Some i) None r u = Ok (i :: w).
Proof. exact walk_has_draws. Qed.
Print Assumptions C81_every_walk_possible.
Example C81_example : stochastic 3 (ch_p cA) /\ possible_walk 3 (ch_p cA) [0; 0; 1; 2] /\
  in_slot (ch_p cA) 0 1 (q (1 # 2)) /\ ~ in_slot (ch_p cA) 0 1 (q (1 # 3)).
Proof.
  split; [apply stochasticb_ok; vm_compute; reflexivity|]. split; [|split].
  - split; cbn [length]; intros k Hk.
    + do 4 (destruct k as [|k]; [cbn; lia|]). lia.
    + do 3 (destruct k as [|k]; [reflexivity|]). lia.
  - split; [discriminate|reflexivity].
  - intros [H _]. apply Qcle_not_lt in H. apply H. reflexivity.
Qed.

(** ** C55 predict *)
Theorem C55_predict_greedy_partial : forall n P steps i, stochastic n P -> 1 <= steps -> i < n ->
  exists o, predict P steps i = Ok o /\
    forall w, o = Some w <-> length w = steps + 1 /\ nth 0 w 0 = i /\ greedy n P w.
Proof. exact predict_spec. Qed.
Print Assumptions C55_predict_greedy_partial.
Theorem C55_predict_one_step_partial : forall n P i w, stochastic n P -> i < n -> predict P 1 i = Ok (Some w) -> most_probable n P w.
Proof. exact predict_one. Qed.
Print Assumptions C55_predict_one_step_partial.
Theorem C55_predict_level_partial : forall n P steps i w c, stochastic n P -> 1 <= steps -> i < n ->
  (forall a b, a < n -> b < n -> (mget P a b <= c)%Qc) -> (forall a, a < n -> exists b, b < n /\ mget P a b = c) ->
  predict P steps i = Ok (Some w) -> most_probable n P w.
Proof. exact predict_level. Qed.
Print Assumptions C55_predict_level_partial.
Theorem C55_predict_refuted : exists n P steps i w, stochastic n P /\ i < n /\ 1 <= steps /\
  predict P steps i = Ok (Some w) /\ ~ most_probable n P w.
Proof. exact predict_not_optimal. Qed.
Print Assumptions C55_predict_refuted.
Example C55_example : stochastic 3 (ch_p cW) /\ predict (ch_p cW) 3 0 = Ok (Some [0; 1; 2; 0]) /\
  predict (ch_p cA) 3 0 = Ok None /\ predict (ch_p cA) 1 1 = Ok (Some [1; 2]).
Proof. split; [apply stochasticb_ok; vm_compute; reflexivity|]. repeat split; vm_compute; reflexivity. Qed.

(** ** C56 sequence probability *)
Theorem C56_sequence_probability : forall n P w, stochastic n P -> w <> [] -> (forall k, k < length w -> nth k w 0 < n) ->
  sequence_probability P w = Qc2R (walk_prob P w).
Proof. exact sequence_probability_spec. Qed.
Print Assumptions C56_sequence_probability.
Example C56_example : stochastic 3 (ch_p cU) /\ (this (walk_prob (ch_p cU) [0; 1; 1; 2; 2]%nat) = 27 # 500)%Q /\
  (this (walk_prob (ch_p cU) [0; 1; 0; 0; 2]%nat) = 0)%Q.
Proof. split; [apply stochasticb_ok; vm_compute; reflexivity|]. split; vm_compute; reflexivity. Qed.
