(** P_HmmLaw: properties C124 and C125, the law of simulated hidden Markov models and their ergodicity.
    Uniform draws and the integer behind a missing initial state are arguments. *)
From Verif Require Import L_HmmLaw L_Period2 Dec ExH.
From Coq Require Import Reals.
Close Scope R_scope.
Open Scope nat_scope.
Open Scope res_scope.

(** * C124: simulate and next *)
(** A run is produced exactly when each draw falls into the interval of its state or symbol, an interval as long as the probability. *)
Theorem C124_law : forall n k P E states symbols steps i c0 pr er w y0 ys, stochastic n P -> row_stochastic n k E -> unit_draws pr -> unit_draws er -> (0 <= c0)%Qc -> (c0 < 1q)%Qc -> i < n ->
  length w = steps -> length ys = steps -> (forall q, q < steps -> nth q w 0 < n /\ nth q ys 0 < k) -> y0 < k ->
  (hmm_simulate (mkhmm P E states symbols) steps i None None c0 pr er = (i :: w, y0 :: ys) <->
   in_slot E i y0 c0 /\ forall q, q < steps -> in_slot_right P (nth q (i :: w) 0) (nth q w 0) (pr q) /\ in_slot_right E (nth q w 0) (nth q ys 0) (er q)).
Proof. exact hmm_law. Qed.
Print Assumptions C124_law.
(** Every run of positive probability is produced by some draws. *)
Theorem C124_every_run : forall n k P E states symbols steps i w y0 ys, stochastic n P -> row_stochastic n k E -> length w = steps -> possible_run n k P E (i :: w) (y0 :: ys) ->
  exists c0 pr er, (0 <= c0)%Qc /\ (c0 < 1q)%Qc /\ unit_draws pr /\ unit_draws er /\ hmm_simulate (mkhmm P E states symbols) steps i None None c0 pr er = (i :: w, y0 :: ys).
Proof. exact run_has_draws. Qed.
Print Assumptions C124_every_run.
Example C124_law_example : stochastic 2 pH /\ row_stochastic 2 3 eH /\ in_slot eH 0 1 (q (3 # 5)) /\ in_slot_right pH 0 1 (q (4 # 5)) /\ in_slot_right eH 1 2 (q (1 # 2)) /\ ~ in_slot_right eH 1 2 (q (2 # 5)) /\
  possible_run 2 3 pH eH [0; 1] [1; 2] /\ hmm_simulate hH 1 0 None None (q (3 # 5)) (fun _ => q (4 # 5)) (fun _ => q (1 # 2)) = ([0; 1], [1; 2]).
Proof.
  split; [apply stochasticb_ok; vm_compute; reflexivity|]. split; [apply row_stochasticb_ok; vm_compute; reflexivity|].
  split; [split; [apply Qcleb_le|apply Qcltb_lt]; vm_compute; reflexivity|]. split; [split; [apply Qcleb_le|left; apply Qcltb_lt]; vm_compute; reflexivity|].
  split; [split; [apply Qcleb_le|left; apply Qcltb_lt]; vm_compute; reflexivity|].
  split; [intros (_ & [H|H]); [|discriminate]; apply Qcltb_lt in H; vm_compute in H; discriminate|].
  split; [|vm_compute; reflexivity]. split; [reflexivity|]. split; cbn [length].
  - intros [|[|t]] Ht; [| |lia]; (split; [cbn; lia|]; split; [cbn; lia|]); apply Qcltb_lt; vm_compute; reflexivity.
  - intros [|t] Ht; [|lia]. apply Qcltb_lt; vm_compute; reflexivity.
Qed.
(** The arguments simulate accepts, and how the run is shown. *)
Theorem C124_simulate : forall n k h steps iv fv yv b r0 c0 pr er os oy, 0 < n -> stochastic n (h_p h) -> row_stochastic n k (h_e h) -> names_ok n (h_states h) -> names_ok k (h_symbols h) ->
  unit_draws pr -> unit_draws er -> (0 <= c0)%Qc -> (c0 < 1q)%Qc ->
  (simulate_hmm h steps iv fv yv b r0 c0 pr er = Ok (os, oy) <->
   exists z i fs fy bb, steps = PInt z /\ (2 <= z)%Z /\ chosen (h_states h) iv i /\ chosen (h_states h) fv fs /\ chosen (h_symbols h) yv fy /\ b = PBool bb /\
     let r := hmm_simulate h (Z.to_nat z) (match i with None => Nat.modulo r0 n | Some i => i end) fs fy c0 pr er in
     shown bb (h_states h) (fst r) os /\ shown bb (h_symbols h) (snd r) oy).
Proof. exact simulate_hmm_iff. Qed.
Print Assumptions C124_simulate.
(** next: one state and one symbol, drawn as in a run, and the three targets show the same pair. *)
Theorem C124_next : forall n k h v i c0 pr er, stochastic n (h_p h) -> row_stochastic n k (h_e h) -> names_ok n (h_states h) -> names_ok k (h_symbols h) ->
  unit_draws pr -> unit_draws er -> designates1 (h_states h) v i ->
  exists s y, s < n /\ y < k /\ in_slot_right (h_p h) i s (pr 0) /\ in_slot_right (h_e h) s y (er 0) /\
  forall b, exists os oy, shown b (h_states h) [s] os /\ shown b (h_symbols h) [y] oy /\
    next_hmm h v (PStr "state") (PBool b) c0 pr er = Ok (OneOut os) /\ next_hmm h v (PStr "symbol") (PBool b) c0 pr er = Ok (OneOut oy) /\
    next_hmm h v (PStr "both") (PBool b) c0 pr er = Ok (TwoOut os oy).
Proof. exact next_hmm_spec. Qed.
Print Assumptions C124_next.
Theorem C124_next_accepts : forall h v t b c0 pr er, labels_ok (h_states h) -> (exists o, next_hmm h v t b c0 pr er = Ok o) ->
  (exists i, designates1 (h_states h) v i) /\ (t = PStr "both" \/ t = PStr "state" \/ t = PStr "symbol") /\ exists bb, b = PBool bb.
Proof. exact next_accepts. Qed.
Print Assumptions C124_next_accepts.
Example C124_example : names_ok 2 (h_states hH) /\ names_ok 3 (h_symbols hH) /\ designates1 (h_states hH) (PStr "A") 0 /\ unit_draws (fun _ => q (4 # 5)) /\
  next_hmm hH (PStr "A") (PStr "both") (PBool false) (q (1 # 2)) (fun _ => q (4 # 5)) (fun _ => q (1 # 2)) = Ok (TwoOut (Names ["B"%string]) (Names ["w"%string])) /\
  next_hmm hH (PInt 0) (PStr "symbol") (PBool true) (q (1 # 2)) (fun _ => q (4 # 5)) (fun _ => q (1 # 2)) = Ok (OneOut (Indices [2])) /\
  next_hmm hH (PInt 2) (PStr "symbol") (PBool true) (q (1 # 2)) (fun _ => q (4 # 5)) (fun _ => q (1 # 2)) = Err ValueErr /\
  simulate_hmm hH (PInt 2) (Some (PStr "A")) None None (PBool false) 0 (q (3 # 5)) (fun _ => q (4 # 5)) (fun _ => q (1 # 2)) = Ok (Names ["A"; "B"; "B"]%string, Names ["v"; "w"; "w"]%string) /\
  simulate_hmm hH (PInt 1) (Some (PStr "A")) None None (PBool false) 0 (q (3 # 5)) (fun _ => q (4 # 5)) (fun _ => q (1 # 2)) = Err ValueErr.
Proof.
  split; [apply names_okb_ok; vm_compute; reflexivity|]. split; [apply names_okb_ok; vm_compute; reflexivity|]. split; [split; [cbn; lia|right; exists "A"%string; split; reflexivity]|].
  split; [intros t; split; [apply Qcleb_le|apply Qcltb_lt]; vm_compute; reflexivity|]. split; [vm_compute; reflexivity|]. split; [vm_compute; reflexivity|]. split; [vm_compute; reflexivity|].
  split; vm_compute; reflexivity.
Qed.

(** * C125: is_ergodic *)
(** True exactly when for some number of steps, from whatever state, every state emitting every symbol is possible. *)
Theorem C125_is_ergodic_partial : forall n k h nx, 2 <= n -> 0 < k -> stochastic n (h_p h) -> row_stochastic n k (h_e h) -> names_ok n (h_states h) -> nx_ok n (h_p h) nx ->
  exists b, hmm_is_ergodic h nx = Ok b /\ (b = true <-> exists m, mixes n k (h_p h) (h_e h) m).
Proof. exact hmm_ergodic_spec. Qed.
Print Assumptions C125_is_ergodic_partial.
(** A model restricted to one state has no answer: the property raises an error. *)
Theorem C125_one_state_refuted : forall n k h i h' nx, 1 < n -> 1 < k -> stochastic n (h_p h) -> row_stochastic n k (h_e h) -> restrict h (Some (SelOne i)) None = Ok h' ->
  hmm_is_ergodic h' nx = Err ValueErr.
Proof. exact one_state_raises. Qed.
Print Assumptions C125_one_state_refuted.
Example C125_example : nx_ok 2 pH (nx_default pH) /\ hmm_is_ergodic hH (nx_default pH) = Ok true /\ hmm_is_ergodic hZ (nx_default pZ) = Ok false /\
  stochastic 3 p3 /\ row_stochastic 3 2 e3 /\ exists h', restrict h3 (Some (SelOne 1)) None = Ok h'.
Proof.
  split; [apply nx_default_ok; exact (proj1 (stochasticb_ok 2 pH ltac:(vm_compute; reflexivity)))|]. split; [vm_compute; reflexivity|]. split; [vm_compute; reflexivity|].
  split; [apply stochasticb_ok; vm_compute; reflexivity|]. split; [apply row_stochasticb_ok; vm_compute; reflexivity|]. vm_compute. eexists. reflexivity.
Qed.
