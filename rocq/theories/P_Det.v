(** P_Det: properties of determinant, rank and regularity (theorems only). *)
From Verif Require Import S_Det S_Gen S_Struct M_Struct M_Generators L_Det3 L_Det4 Ex Dec L_StructR.
Open Scope nat_scope.

(** ** C146 determinant *)
Theorem C146_expansion : forall n p, wf n n p -> determinant p = laplace n (mget p).
Proof. exact determinant_laplace. Qed.
Print Assumptions C146_expansion.
Theorem C146_bounds : forall n P, stochastic n P -> (- 1q <= determinant P /\ determinant P <= 1q)%Qc.
Proof. exact determinant_bound. Qed.
Print Assumptions C146_bounds.
Theorem C146_nth_order : forall n c k c', valid_chain n c -> to_nth_order c k = Ok c' ->
  determinant (ch_p c') = Qcpower (determinant (ch_p c)) (Z.to_nat k).
Proof. exact determinant_power. Qed.
Print Assumptions C146_nth_order.
Theorem C146_canonical_form : forall n c comps, valid_chain n c -> scc_enum n (edge (ch_p c)) comps ->
  determinant (ch_p (to_canonical_form c comps)) = determinant (ch_p c).
Proof. exact determinant_canonical. Qed.
Print Assumptions C146_canonical_form.
Theorem C146_loses_nothing : forall n P, 0 < n -> stochastic n P -> (determinant P <> 0q <-> loses_nothing n n (mget P)).
Proof. exact determinant_full. Qed.
Print Assumptions C146_loses_nothing.
Example C146_example : stochastic 3 (ch_p cB) /\ determinant (ch_p cB) = Q2Qc (- (1 # 3))%Q /\ determinant (ch_p cR) = Q2Qc (- (1 # 2))%Q.
Proof. split; [apply stochasticb_ok; vm_compute; reflexivity|]. split; apply Qceqb_eq; vm_compute; reflexivity. Qed.

(** ** C147 rank *)
Theorem C147_basis : forall n p, wf n n p -> is_rank n n (mget p) (rank p).
Proof. exact rank_is. Qed.
Print Assumptions C147_basis.
Theorem C147_unique : forall n w A r r', is_rank n w A r -> is_rank n w A r' -> r = r'.
Proof. exact rank_unique. Qed.
Print Assumptions C147_unique.
Theorem C147_full : forall n P, 0 < n -> stochastic n P -> (rank P = n <-> loses_nothing n n (mget P)).
Proof. exact rank_full. Qed.
Print Assumptions C147_full.
Theorem C147_one : forall n P, 0 < n -> stochastic n P ->
  (rank P = 1 <-> forall i k j, i < n -> k < n -> j < n -> mget P i j = mget P k j).
Proof. exact rank_one_same. Qed.
Print Assumptions C147_one.
Theorem C147_nth_order : forall n c k c', valid_chain n c -> to_nth_order c k = Ok c' -> rank (ch_p c') <= rank (ch_p c).
Proof. exact rank_nth_order. Qed.
Print Assumptions C147_nth_order.
Example C147_example : stochastic 4 (ch_p cC) /\ rank (ch_p cC) = 3 /\ rank (ch_p cP) = 4 /\ rank (qm [[1 # 3; 2 # 3]; [1 # 3; 2 # 3]]%Q) = 1.
Proof. split; [apply stochasticb_ok; vm_compute; reflexivity|]. repeat split; vm_compute; reflexivity. Qed.

(** ** C148 regular hidden Markov models *)
Theorem C148_square_partial : forall n e, 0 < n -> row_stochastic n n e -> (hmm_is_regular n n e = true <-> loses_nothing n n (mget e)).
Proof. exact regular_square. Qed.
Print Assumptions C148_square_partial.
Example C148_example : row_stochastic 2 2 (qm [[1 # 2; 1 # 2]; [1 # 3; 2 # 3]]%Q) /\ hmm_is_regular 2 2 (qm [[1 # 2; 1 # 2]; [1 # 3; 2 # 3]]%Q) = true.
Proof. split; [apply row_stochasticb_ok; vm_compute; reflexivity|vm_compute; reflexivity]. Qed.
Theorem C148_never_partial : forall n k e, n < k -> wf n k e -> hmm_is_regular n k e = false.
Proof. exact regular_wide. Qed.
Print Assumptions C148_never_partial.
Theorem C148_always_loses_partial : forall n k e, 0 < n -> k < n -> row_stochastic n k e -> ~ loses_nothing n k (mget e).
Proof. exact tall_loses. Qed.
Print Assumptions C148_always_loses_partial.
Theorem C148_more_symbols_refuted : row_stochastic 2 3 e_wide /\ loses_nothing 2 3 (mget e_wide) /\ hmm_is_regular 2 3 e_wide = false.
Proof. exact wide_example. Qed.
Print Assumptions C148_more_symbols_refuted.
Theorem C148_more_states_refuted : row_stochastic 3 2 e_tall /\ ~ loses_nothing 3 2 (mget e_tall) /\ hmm_is_regular 3 2 e_tall = true.
Proof. exact tall_example. Qed.
Print Assumptions C148_more_states_refuted.
