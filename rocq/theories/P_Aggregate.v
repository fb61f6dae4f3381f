(** P_Aggregate: property C122, spectral aggregation.
    signs (signs of the eigenvector used for a split) and kld (the divergence that ranks the candidates)
    are arguments; every theorem holds for all of them unless it says otherwise. *)
From Verif Require Import L_Aggregate4.
Open Scope nat_scope.
Open Scope res_scope.

(** * C122: aggregation into a smaller chain *)
(** A result exists only for ergodic chains and 2 <= s <= n - 1; anything else is a ValueError. *)
Theorem C122_accepts_partial : forall n m s a signs kld, env_ok n m ->
  (forall c, aggregate signs kld m s a = Ok c -> (2 <= s <= Z.of_nat n - 1)%Z /\ ergodic n (en_p m)) /\
  (~ ((2 <= s <= Z.of_nat n - 1)%Z /\ ergodic n (en_p m)) -> aggregate signs kld m s a = Err ValueErr).
Proof. exact (fun n m s a signs kld Hm => conj (fun c => agg_inv n m s a signs kld c Hm) (agg_reject n m s a signs kld Hm)). Qed.
Example C122_accepts_example : env_ok 3 (env cAgg) /\ (exists c, aggregate sgE klE (env cAgg) 2 TopDown = Ok c) /\
  env_ok 3 (env c3) /\ aggregate sgE klE (env c3) 2 TopDown = Err ValueErr /\ aggregate sgE klE (env cAgg) 3 TopDown = Err ValueErr.
Proof.
  split; [exact (proj1 cAgg_ok)|]. split; [vm_compute; eexists; reflexivity|]. split; [apply env_b; vm_compute; reflexivity|]. split; vm_compute; reflexivity.
Qed.
Print Assumptions C122_accepts_partial.

(** Bottom-up: an ergodic chain always gets a result.  Its states are groups of the original states and its
    moves are the stationary conditional probabilities; it has the requested number of groups
    when every split separates something and the divergence is a number. *)
Theorem C122_bottom_up_partial : forall n m s signs kld, env_ok n m -> ergodic n (en_p m) -> 2 <= s -> s < n ->
  exists pi c, distribution n pi /\ stationary n (en_p m) pi /\ aggregate signs kld m (Z.of_nat s) BottomUp = Ok c /\
   ((exists G, grouping n G /\ length G <= s /\ aggregated (en_p m) pi G (ch_p c) /\ stochastic (length G) (ch_p c) /\
       (splits n (en_p m) pi signs -> (forall ph q, kld ph q <> None) -> length G = s)) \/
    (ch_p c = equal_moves n /\ ~ (splits n (en_p m) pi signs /\ forall ph q, kld ph q <> None))).
Proof. exact bottom_up_spec. Qed.
Example C122_bottom_up_example : env_ok 3 (env cAgg) /\ ergodic 3 (ch_p cAgg) /\ splits 3 (ch_p cAgg) piAgg sgE /\ (forall ph q, klE ph q <> None) /\
  match aggregate sgE klE (env cAgg) 2 BottomUp with Ok c => showm (ch_p c) = [[5 # 12; 7 # 12]; [7 # 24; 17 # 24]]%Q /\ ch_states c = ["ASBU1"; "ASBU2"]%string | Err _ => False end.
Proof.
  split; [exact (proj1 cAgg_ok)|]. split; [exact (proj1 (proj2 cAgg_ok))|]. split; [apply sgE_splits|]. split; [intros ph q; discriminate|]. vm_compute. split; reflexivity.
Qed.
Print Assumptions C122_bottom_up_partial.

(** Top-down: the result is a chain with at most s states; when it has s states they are groups of
    the original states and its moves are the stationary conditional probabilities. *)
Theorem C122_top_down_partial : forall n m s signs kld c, env_ok n m -> aggregate signs kld m (Z.of_nat s) TopDown = Ok c ->
  exists pi k, distribution n pi /\ stationary n (en_p m) pi /\ 1 <= k <= s /\ length (ch_states c) = k /\ stochastic k (ch_p c) /\
    (k = s -> exists G, grouping n G /\ length G = s /\ aggregated (en_p m) pi G (ch_p c)).
Proof. exact top_down_spec. Qed.
Example C122_top_down_example : env_ok 3 (env cAgg) /\
  match aggregate sgE klE (env cAgg) (Z.of_nat 2) TopDown with Ok c => showm (ch_p c) = [[5 # 12; 7 # 12]; [7 # 24; 17 # 24]]%Q /\ ch_states c = ["ASTD1"; "ASTD2"]%string | Err _ => False end.
Proof. split; [exact (proj1 cAgg_ok)|]. vm_compute. split; reflexivity. Qed.
Print Assumptions C122_top_down_partial.

(** The stationary probabilities of the groups are a stationary vector of the aggregated chain. *)
Theorem C122_stationary_masses : forall n P pi G Q, stationary n P pi -> (forall i, i < n -> (0 < vget pi i)%Qc) -> grouping n G -> aggregated P pi G Q ->
  stationary (length G) Q (tab (length G) (fun a => mass pi (nth a G []))).
Proof. exact mass_stationary. Qed.
Example C122_stationary_masses_example : stationary 3 (ch_p cAgg) piAgg /\ (forall i, i < 3 -> (0 < vget piAgg i)%Qc) /\ grouping 3 [[0]; [1; 2]] /\
  aggregated (ch_p cAgg) piAgg [[0]; [1; 2]] (qm [[5 # 12; 7 # 12]; [7 # 24; 17 # 24]]%Q) /\
  showv (tab 2 (fun a => mass piAgg (nth a [[0]; [1; 2]] []))) = [1 # 3; 2 # 3]%Q.
Proof.
  split; [split; [reflexivity|]; intros j Hj; destruct j as [|[|[|]]]; try lia; apply Qceqb_eq; vm_compute; reflexivity|].
  split; [exact (proj2 piAgg_ok)|]. split; [exact grouping_ex|].
  split; [|vm_compute; reflexivity]. split; [apply wfb_wf; reflexivity|]. intros a b Ha Hb. cbn in Ha, Hb. destruct a as [|[|]]; try lia; destruct b as [|[|]]; try lia; apply Qceqb_eq; vm_compute; reflexivity.
Qed.
Print Assumptions C122_stationary_masses.

(** 'adaptive' is top-down, except for chains with at least 30 states of which at most 30% are to be kept. *)
Theorem C122_adaptive : forall n m s signs kld, env_ok n m ->
  aggregate signs kld m s Adaptive =
  aggregate signs kld m s (if Nat.ltb n 30 then TopDown else if Z.leb (10 * s) (3 * Z.of_nat n) then BottomUp else TopDown).
Proof. exact adaptive_spec. Qed.
Example C122_adaptive_example : env_ok 3 (env cAgg) /\ match aggregate sgE klE (env cAgg) 2 Adaptive with Ok c => ch_states c = ["ASTD1"; "ASTD2"]%string | Err _ => False end.
Proof. split; [exact (proj1 cAgg_ok)|]. vm_compute. reflexivity. Qed.
Print Assumptions C122_adaptive.

(** The claim "the result has s states" is false for top-down: merging two groups that are not
    neighbours loses the group before the second one.  The matrix below has eigenvalues 1, 1/2, 0 and
    equals its reversibilisation, so the eigenvector used is one for 1/2; whatever its scale, asking for 2 states gives 1. *)
Theorem C122_top_down_refuted : exists n m, env_ok n m /\ ergodic n (en_p m) /\
  (exists pi, stationary n (en_p m) pi /\ (forall i, i < n -> (0 < vget pi i)%Qc) /\ two_way (en_p m) pi (seq 0 n) = en_p m) /\
  (forall lam v, eigenvector n (en_p m) lam v -> lam = 1q \/ lam = Q2Qc (1 # 2) \/ lam = 0q) /\
  forall signs kld v, eigenvector n (en_p m) (Q2Qc (1 # 2)) v -> signs (en_p m) = sign_of v ->
    exists c, aggregate signs kld m 2 TopDown = Ok c /\ aggregate signs kld m 2 Adaptive = Ok c /\ nrows (ch_p c) = 1.
Proof. exact top_down_wrong. Qed.
Example C122_top_down_refuted_example : eigenvector 3 (ch_p cAgg) (Q2Qc (1 # 2)) (qv [1; -2; 1]%Q) /\ sgV (ch_p cAgg) = sign_of (qv [1; -2; 1]%Q).
Proof. exact cAgg_vector. Qed.
Print Assumptions C122_top_down_refuted.

(** ... and for bottom-up: on a set of states without moves among themselves the reversibilisation is
    zero, its unit eigenvectors have no negative entry, and the split is dropped without notice. *)
Theorem C122_bottom_up_refuted : exists n m pi, env_ok n m /\ ergodic n (en_p m) /\ stationary n (en_p m) pi /\ (forall i, i < n -> (0 < vget pi i)%Qc) /\
  two_way (en_p m) pi [0; 1; 2; 3] = en_p m /\ two_way (en_p m) pi [1; 2; 3] = zero3 /\ n = 4 /\
  (forall lam v, eigenvector n (en_p m) lam v -> lam = 1q \/ lam = Q2Qc (- 3 # 4) \/ lam = 0q) /\
  forall signs kld v, (forall phi q, kld phi q <> None) -> eigenvector n (en_p m) (Q2Qc (- 3 # 4)) v -> signs (en_p m) = sign_of v -> signs zero3 = [true; true; true] ->
    exists c, aggregate signs kld m 3 BottomUp = Ok c /\ nrows (ch_p c) = 2.
Proof. exact bottom_up_wrong. Qed.
Example C122_bottom_up_refuted_example : eigenvector 4 (ch_p cStar) (Q2Qc (- 3 # 4)) (qv [-3; 4; 4; 4]%Q) /\ sgW (ch_p cStar) = sign_of (qv [-3; 4; 4; 4]%Q) /\ sgW zero3 = [true; true; true].
Proof. exact cStar_vector. Qed.
Print Assumptions C122_bottom_up_refuted.
