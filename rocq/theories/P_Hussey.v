(** P_Hussey: property theorems about the Tauchen-Hussey approximation. *)
From Verif Require Import M_Hussey L_Hussey L_Hussey2.
From Coq Require Import Reals ZArith.
Close Scope R_scope.
Open Scope nat_scope.
Open Scope res_scope.

(** ** C138 a valid chain, whatever the units *)
Theorem C138_stochastic : forall size alpha sigma rho k p, approximation_hussey size alpha sigma rho k = Ok p -> let n := Z.to_nat size in
  (forall i j, i < n -> j < n -> (0 < p i j)%R) /\ (forall i, i < n -> rsum n (p i) = 1%R).
Proof. exact hussey_stochastic. Qed.
Print Assumptions C138_stochastic.
Theorem C138_units : forall size a a' sigma rho k c p, (0 < c)%R -> approximation_hussey size a sigma rho k = Ok p ->
  exists p', approximation_hussey size a' (c * sigma) rho (option_map (Rmult c) k) = Ok p' /\
    forall i j, i < Z.to_nat size -> j < Z.to_nat size -> p' i j = p i j.
Proof. exact hussey_invariant. Qed.
Print Assumptions C138_units.
Theorem C138_mirror : forall size alpha sigma rho k p, approximation_hussey size alpha sigma rho k = Ok p ->
  let n := Z.to_nat size in Nat.even n = true ->
  forall i j, i < n -> j < n -> p (n - 1 - i) (n - 1 - j) = p i j.
Proof. exact hussey_mirror. Qed.
Print Assumptions C138_mirror.
Example C138_example : forall alpha, exists p, approximation_hussey 2 alpha 3 (1 / 2) (Some 1%R) = Ok p.
Proof.
  exact (fun alpha => match hussey_two alpha 3 (1 / 2) 1 ltac:(Lra.lra) ltac:(Lra.lra) ltac:(Lra.lra) with ex_intro _ p (ex_intro _ _ (conj H _)) => ex_intro _ p H end).
Qed.

(** ** C139 the persistence of the process *)
Theorem C139_two_states_partial : forall alpha sigma rho k, (0 < sigma)%R -> (-1 <= rho <= 1)%R -> (0 < k)%R ->
  exists p z, approximation_hussey 2 alpha sigma rho (Some k) = Ok p /\ (sqrt (1 / 2) <= z <= sqrt (1 / 2) + / 10 ^ 14)%R /\
    p 0 0 = p 1 1 /\ p 0 1 = p 1 0 /\ p 0 0 = (p 0%nat 1%nat * exp (8 * rho * ((k * z / sigma) * (k * z / sigma))))%R.
Proof. exact hussey_two. Qed.
Print Assumptions C139_two_states_partial.
Example C139_example : (0 < 1)%R /\ (-1 <= 1 / 10 <= 1)%R.
Proof. split; Lra.lra. Qed.
(** Asked for the autocorrelation 1/10, the chain has more than 19/100: [y] is the standardised
    state under the stationary distribution (1/2, 1/2). *)
Theorem C139_persistence_refuted : exists p, approximation_hussey 2 0 1 (1 / 10) None = Ok p /\
  (forall j, j < 2 -> (1 / 2 * p 0%nat j + 1 / 2 * p 1%nat j = 1 / 2)%R) /\
  let y (i : nat) := match i with O => (-1)%R | _ => 1%R end in
  (19 / 100 < rsum 2 (fun i => 1 / 2 * y i * rsum 2 (fun j => p i j * y j)))%R.
Proof. exact hussey_persistence. Qed.
Print Assumptions C139_persistence_refuted.
