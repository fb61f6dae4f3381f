(** P_KL: property C171, the divergence that ranks the candidates of an aggregation. *)
From Verif Require Import L_KL4.
From Coq Require Import Reals.
Close Scope R_scope.
Open Scope nat_scope.

(** * C171: what aggregate minimises *)
(** Over the laws of the first k + 1 states the chain and its lifted aggregation (which moves between the groups
    like the aggregated chain and picks a state of the group by its long-run probability) are k times the computed
    number of bits apart. *)
Theorem C171_rate : forall n P pi phi q L, stochastic n P -> long_run n P pi -> (forall v, In v phi -> length v = n) -> grouping n (map members phi) ->
  calc_q P pi phi = Some q -> lifted n pi (map members phi) q L ->
  stochastic n L /\ forall k, path_divergence n P L pi (S k) = (INR k * kl_divergence P pi phi q)%R.
Proof. exact kl_rate_spec. Qed.
Example C171_rate_example : stochastic 3 (ch_p cAgg) /\ long_run 3 (ch_p cAgg) piAgg /\ (forall v, In v phiB -> length v = 3) /\ grouping 3 (map members phiB) /\
  calc_q (ch_p cAgg) piAgg phiB = Some qB /\ lifted 3 piAgg (map members phiB) qB LB.
Proof. exact (conj (proj1 kl_long) (conj (proj2 kl_long) (conj (proj2 kl_lens) (conj (proj2 kl_groups) (conj kl_qB kl_liftB))))). Qed.
Print Assumptions C171_rate.

(** It is never negative, and zero exactly when the chain is that lifted chain: nothing was lost. *)
Theorem C171_sign : forall n P pi phi q L, stochastic n P -> long_run n P pi -> (forall v, In v phi -> length v = n) -> grouping n (map members phi) ->
  calc_q P pi phi = Some q -> lifted n pi (map members phi) q L ->
  (0 <= kl_divergence P pi phi q)%R /\ (kl_divergence P pi phi q = 0%R <-> P = L).
Proof. exact kl_sign_spec. Qed.
Example C171_sign_example : stochastic 3 (ch_p cAgg) /\ long_run 3 (ch_p cAgg) piAgg /\ (forall v, In v phiA -> length v = 3) /\ grouping 3 (map members phiA) /\
  calc_q (ch_p cAgg) piAgg phiA = Some qA /\ lifted 3 piAgg (map members phiA) qA (ch_p cAgg) /\
  kl_divergence (ch_p cAgg) piAgg phiA qA = 0%R /\ (0 < kl_divergence (ch_p cAgg) piAgg phiB qB)%R.
Proof. exact (conj (proj1 kl_long) (conj (proj2 kl_long) (conj (proj1 kl_lens) (conj (proj1 kl_groups) (conj kl_qA (conj kl_liftA kl_values)))))). Qed.
Print Assumptions C171_sign.

(** For given groups no other chain on them (that allows the moves the chain can make) comes closer. *)
Theorem C171_best_for_groups : forall n P pi phi q r, stochastic n P -> long_run n P pi -> (forall v, In v phi -> length v = n) -> grouping n (map members phi) ->
  calc_q P pi phi = Some q -> stochastic (length phi) r ->
  (forall a b i j, a < length phi -> b < length phi -> In i (members (nth a phi [])) -> In j (members (nth b phi [])) -> (0 < mget P i j)%Qc -> (0 < mget r a b)%Qc) ->
  (kl_divergence P pi phi q <= kl_divergence P pi phi r)%R.
Proof. exact kl_optimal_spec. Qed.
Example C171_best_for_groups_example : calc_q (ch_p cAgg) piAgg phiB = Some qB /\ stochastic 2 rB /\ (forall a b, a < 2 -> b < 2 -> (0 < mget rB a b)%Qc) /\ rB <> qB.
Proof. split; [exact kl_qB|]. split; [exact (proj1 kl_rB)|]. split; [exact (proj2 kl_rB)|]. intros E. vm_compute in E. discriminate. Qed.
Print Assumptions C171_best_for_groups.
