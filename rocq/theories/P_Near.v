(** P_Near: property theorems about chains whose rows sum to one only within the constructor's
    tolerance. *)
From Verif Require Import S_Chain S_Io S_Classic M_Choice M_Generators L_Near ExM.
Open Scope nat_scope.
Open Scope res_scope.

(** ** C140 every accepted chain can be simulated *)
Theorem C140_exact_partial : forall n P steps init final r u v, stochastic n P ->
  simulate P steps init final r u = Ok v -> simulate_checked P steps init final r u = Ok v.
Proof. exact simulate_exact. Qed.
Print Assumptions C140_exact_partial.
Theorem C140_simulated_partial : forall p steps init final r u v, simulate_checked p steps init final r u = Ok v <->
  simulate p steps init final r u = Ok v /\
  forall i, In i (removelast v) -> (Qcabs (sumn (nrows p) (fun j => mget p i j) - 1) <= Q2Qc (1 # 67108864))%Qc.
Proof. exact simulate_iff. Qed.
Print Assumptions C140_simulated_partial.
Theorem C140_hmm_partial : forall h n k steps init fs fy c0 pr er, row_stochastic n k (h_e h) -> 0 < n -> init < n ->
  hmm_simulate_checked h steps init fs fy c0 pr er = Ok (hmm_simulate h steps init fs fy c0 pr er).
Proof. exact hmm_exact. Qed.
Print Assumptions C140_hmm_partial.
Example C140_example : simulate_checked (ch_p cA) 3 (Some 1) None 0 (fun _ => half) = simulate (ch_p cA) 3 (Some 1) None 0 (fun _ => half) /\
  is_ok (simulate (ch_p cA) 3 (Some 1) None 0 (fun _ => half)) = true.
Proof. split; vm_compute; reflexivity. Qed.
(** A chain the constructor accepts and which no call can simulate. *)
Theorem C140_tolerance_refuted : exists c, accepted_chain 2 c /\
  forall steps init final r u, is_ok (simulate_checked (ch_p c) steps init final r u) = false.
Proof. exact (ex_intro _ cNear (conj near_ok near_fails)). Qed.
Print Assumptions C140_tolerance_refuted.

(** ** C141 chains derived from accepted chains *)
Theorem C141_lazy_partial : forall n c w r, accepted_chain n c -> to_lazy_chain c w = Ok r ->
  probabilities n n (ch_p r) /\ nearly_stochastic n n (ch_p r).
Proof. exact lazy_near. Qed.
Print Assumptions C141_lazy_partial.
Theorem C141_merge_partial : forall n c d g r, accepted_chain n c -> accepted_chain n d -> merge_with c d g = Ok r ->
  probabilities n n (ch_p r) /\ nearly_stochastic n n (ch_p r).
Proof. exact merge_near. Qed.
Print Assumptions C141_merge_partial.
Theorem C141_nth_order_partial : forall n c o r, accepted_chain n c -> to_nth_order c o = Ok r -> forall i, i < n ->
  (power (1 - tolerance) (Z.to_nat o) <= sumn n (fun j => mget (ch_p r) i j) <= power (1 + tolerance) (Z.to_nat o))%Qc.
Proof. exact nth_near. Qed.
Print Assumptions C141_nth_order_partial.
Example C141_example : accepted_chain 2 cNear /\ is_ok (to_lazy_chain cNear (WScalar half)) = true /\
  is_ok (merge_with cNear cEdge half) = true /\ is_ok (to_nth_order cNear 3) = true.
Proof. split; [exact near_ok|]. repeat split; vm_compute; reflexivity. Qed.
(** A power of an accepted chain that the constructor would reject is returned all the same. *)
Theorem C141_nth_order_refuted : exists r, accepted_chain 2 cEdge /\ to_nth_order cEdge 2 = Ok r /\ ~ nearly_stochastic 2 2 (ch_p r).
Proof. exact nth_far. Qed.
Print Assumptions C141_nth_order_refuted.
