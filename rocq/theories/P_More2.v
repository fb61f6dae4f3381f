(** P_More2: further property theorems about simulation, file readers and graphs. *)
From Verif Require Import L_Tight2 ExS ExIo.
Open Scope nat_scope.
Open Scope res_scope.

(** ** C54 the number of steps is checked *)
Theorem C54_steps : forall p steps init final r u l, simulate p steps init final r u = Ok l -> 2 <= steps.
Proof. exact simulate_steps_checked. Qed.
Print Assumptions C54_steps.
Example C54_steps_example : is_ok (simulate (ch_p cS) 2 (Some 0) None 0 (fun _ => half)) = true /\ is_ok (simulate (ch_p cS) 1 (Some 0) None 0 (fun _ => half)) = false.
Proof. split; vm_compute; reflexivity. Qed.

(** ** C56 a single transition *)
Theorem C56_transition_probability : forall n P target origin v, stochastic n P ->
  (transition_probability P target origin = Ok v <-> target < n /\ origin < n /\ v = path_prob P origin [target]).
Proof. exact transition_probability_iff. Qed.
Print Assumptions C56_transition_probability.
Example C56_transition_example : stochastic 2 (ch_p cS) /\ is_ok (transition_probability (ch_p cS) 1 0) = true.
Proof. split; [apply stochasticb_ok; vm_compute; reflexivity|vm_compute; reflexivity]. Qed.

(** ** C100 the names in a JSON file *)
Theorem C100_json_names : forall float ps t d, read_json float ps t = Ok d -> forall k, In k (map fst d) -> forall s, In s k -> s <> ""%string.
Proof. exact read_json_nonempty. Qed.
Print Assumptions C100_json_names.
Example C100_json_example : is_ok (read_json float0 params_mc (chars "[{""state_from"":""a"",""state_to"":""b"",""probability"":0.5}]")) = true /\
  is_ok (read_json float0 params_mc (chars "[{""state_from"":"""",""state_to"":""b"",""probability"":0.5}]")) = false.
Proof. split; vm_compute; reflexivity. Qed.

(** ** C115 graphs with parallel edges *)
Theorem C115_last_edge_partial : forall nodes edges, exists es, merged edges es /\ from_graph (Some (mkg true nodes edges)) = from_graph (Some (mkg false nodes es)).
Proof. exact from_multigraph. Qed.
Print Assumptions C115_last_edge_partial.
Theorem C115_hmm_last_edge_partial : forall nodes edges, exists es, merged edges es /\ hmm_from_graph (Some (mkg true nodes edges)) = hmm_from_graph (Some (mkg false nodes es)).
Proof. exact hmm_from_multigraph. Qed.
Print Assumptions C115_hmm_last_edge_partial.
Theorem C115_parallel_edges_refuted : exists nodes edges o y, map fst nodes = [PStr "a"; PStr "b"] /\ (forall i j a, In (i, j, a) edges -> i < 2 /\ j < 2) /\
  from_graph (Some (mkg true nodes edges)) = Ok o /\
  nth 1 (nth 0 (r_p o) []) NaN = Fin y /\ y <> (total_weight edges 0 1 / (total_weight edges 0 0 + total_weight edges 0 1))%Qc.
Proof. exact parallel_lost. Qed.
Print Assumptions C115_parallel_edges_refuted.
Example C115_example : is_ok (from_graph (Some g_par)) = true /\ g_multi g_par = true.
Proof. split; vm_compute; reflexivity. Qed.
