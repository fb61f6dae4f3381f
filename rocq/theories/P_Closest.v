(** P_Closest: closest_reversible (C126-C128). *)
From Verif Require Import L_Closest3.
Open Scope nat_scope.

(** C126: the problem handed to the optimiser ranges over exactly the transition matrices in detailed balance with the given
    distribution: every admissible point is turned into such a matrix, and every such matrix comes from an admissible point. *)
Theorem C126_points_are_reversible : forall n d x, 0 < n -> length d = n -> (forall i, i < n -> (0 <= vget d i)%Qc) ->
  let m := cr_m n (cr_zeros d) in qp_point m (cr_a n m d) x -> exists q, cr_combine n m (cr_basis n d) x = Ok q /\ reversible_for n d q.
Proof. exact points_reversible. Qed.
Print Assumptions C126_points_are_reversible.
Theorem C126_all_reversible_are_points : forall n d q, 0 < n -> length d = n -> (forall i, i < n -> (0 <= vget d i)%Qc) -> reversible_for n d q ->
  let m := cr_m n (cr_zeros d) in exists x, qp_point m (cr_a n m d) x /\ cr_combine n m (cr_basis n d) x = Ok q.
Proof. exact points_all. Qed.
Print Assumptions C126_all_reversible_are_points.
Example C126_example : let d := qv [1 # 2; 1 # 2; 0; 0]%Q in let x := qv [1 # 2; 1 # 4; 0; 0; 0; 1 # 8; 1 # 8; 0]%Q in
  cr_m 4 (cr_zeros d) = 8 /\ qp_point 8 (cr_a 4 8 d) x /\
  (let (q, ok) := match cr_combine 4 8 (cr_basis 4 d) x with Ok q => (q, true) | Err _ => ([], false) end in
   ok = true /\ reversible_for 4 d q /\ mget q 0 1 = Q2Qc (1 # 4) /\ mget q 2 3 = Q2Qc (1 # 8)).
Proof.
  cbv zeta. assert (L : length (qv [1 # 2; 1 # 2; 0; 0]%Q) = 4) by reflexivity.
  assert (P : forall i, i < 4 -> (0 <= vget (qv [1 # 2; 1 # 2; 0; 0]%Q) i)%Qc) by (intros [|[|[|[|]]]] Hi; try lia; discriminate).
  assert (Q : qp_point 8 (cr_a 4 8 (qv [1 # 2; 1 # 2; 0; 0]%Q)) (qv [1 # 2; 1 # 4; 0; 0; 0; 1 # 8; 1 # 8; 0]%Q)).
  { split; [reflexivity|]. split; [apply Qceqb_eq; vm_compute; reflexivity|]. apply Forall_forall.
    repeat (constructor; [apply Qcleb_le; vm_compute; reflexivity|]). constructor. }
  split; [vm_compute; reflexivity|]. split; [exact Q|].
  destruct (points_reversible 4 _ _ ltac:(lia) L P Q) as (q & E & R).
  change (cr_m 4 (cr_zeros (qv [1 # 2; 1 # 2; 0; 0]%Q))) with 8 in E. rewrite E.
  split; [reflexivity|]. split; [exact R|].
  assert (V : match cr_combine 4 8 (cr_basis 4 (qv [1 # 2; 1 # 2; 0; 0]%Q)) (qv [1 # 2; 1 # 4; 0; 0; 0; 1 # 8; 1 # 8; 0]%Q) with
              | Ok q => Qceqb (mget q 0 1) (Q2Qc (1 # 4)) && Qceqb (mget q 2 3) (Q2Qc (1 # 8)) | Err _ => false end = true) by (vm_compute; reflexivity).
  rewrite E in V. apply andb_true_iff in V. destruct V as [V1 V2]. split; apply Qceqb_eq; assumption.
Qed.

(** C127: the objective is the squared distance up to a constant, with its gradient; the matrix built from an exact solution is
    the unique closest one among the matrices in detailed balance with the given distribution. *)
Theorem C127_objective_partial : forall weighted n d P, 0 < n -> stochastic n P -> weights_for weighted n d ->
  let m := cr_m n (cr_zeros d) in let b := cr_basis n d in
  exists z c, cr_z d weighted = Ok z /\
    (forall x q, qp_point m (cr_a n m d) x -> cr_combine n m b x = Ok q -> cr_objective (cr_h m b z) (cr_f m b z weighted P) x = (dist2 weighted n d q P - c)%Qc) /\
    (forall x e, length x = m -> length e = m ->
       cr_objective (cr_h m b z) (cr_f m b z weighted P) (tab m (fun k => vget x k + vget e k)%Qc)
       = (cr_objective (cr_h m b z) (cr_f m b z weighted P) x + vdot (cr_jacobian (cr_h m b z) (cr_f m b z weighted P) x) e
          + 1 / (1 + 1) * vdot e (mvmul (cr_h m b z) e))%Qc).
Proof. exact objective_is_distance. Qed.
Print Assumptions C127_objective_partial.
Theorem C127_closest_partial : forall slsqp n P d weighted q, 0 < n -> stochastic n P -> weights_for weighted n d -> exact_optimiser slsqp ->
  mc_closest_reversible slsqp P d weighted = Ok q -> closest_for weighted n d P q.
Proof. exact closest_returned. Qed.
Print Assumptions C127_closest_partial.
Theorem C127_attained_partial : forall n P d weighted Q, 0 < n -> stochastic n P -> weights_for weighted n d -> closest_for weighted n d P Q ->
  exists slsqp, exact_optimiser slsqp /\ mc_closest_reversible slsqp P d weighted = Ok Q.
Proof. exact closest_attained. Qed.
Print Assumptions C127_attained_partial.
Theorem C127_unique : forall weighted n d P Q Q', weights_for weighted n d -> closest_for weighted n d P Q -> closest_for weighted n d P Q' -> Q = Q'.
Proof. exact closest_unique. Qed.
Print Assumptions C127_unique.
Theorem C127_doubly_stochastic : forall n P, 0 < n -> stochastic n P -> doubly_stochastic n P -> closest_for false n (uniform n) P (symmetrised n P).
Proof. exact doubly_closest. Qed.
Print Assumptions C127_doubly_stochastic.
Example C127_example : stochastic 3 (ch_p cDrift) /\ weights_for false 3 (uniform 3) /\ closest_for false 3 (uniform 3) (ch_p cDrift) (symmetrised 3 (ch_p cDrift)) /\
  weights_for true 3 (qv [3 # 13; 4 # 13; 6 # 13]%Q) /\ closest_for true 3 (qv [3 # 13; 4 # 13; 6 # 13]%Q) pNear pNear.
Proof.
  split; [apply drift_ok|]. split; [apply uniform_weights; lia|]. split; [exact drift_closest|].
  assert (W : weights_for true 3 (qv [3 # 13; 4 # 13; 6 # 13]%Q)).
  { split; [reflexivity|]. split; [intros [|[|[|]]] Hi; try lia; discriminate|]. intros _ [|[|[|]]] Hi; try lia; discriminate. }
  split; [exact W|]. split; [split; [apply near_reversible|]|].
  - intros [|[|[|]]] [|[|[|]]] Hi Hj; try lia; apply Qceqb_eq; vm_compute; reflexivity.
  - intros Q' _. replace (dist2 true 3 (qv [3 # 13; 4 # 13; 6 # 13]%Q) pNear pNear) with 0q by (apply Qceqb_eq; vm_compute; reflexivity).
    unfold dist2. apply sumn_nonneg. intros i Hi. apply sumn_nonneg. intros j Hj. assert (H := weight_pos true 3 _ i j W Hi Hj).
    apply Qc_mul_nonneg; [qclra|]. generalize (mget Q' i j - mget pNear i j)%Qc. intros t. qcnra.
Qed.

(** C128: what the method returns. *)
Theorem C128_already_reversible : forall slsqp nx n m dist d weighted, env_ok n m -> (forall p, stochastic n p -> nx_ok n p (nx p)) ->
  used_distribution n dist d -> (weighted = true -> forall i, i < n -> vget d i <> 0q) -> is_reversible m = Ok true ->
  closest_reversible slsqp nx m dist weighted = Ok (mkchain (en_p m) (en_names m)).
Proof. exact closest_same. Qed.
Print Assumptions C128_already_reversible.
Theorem C128_not_reversible_partial : forall slsqp nx n m dist d weighted, env_ok n m -> (forall p, stochastic n p -> nx_ok n p (nx p)) ->
  used_distribution n dist d -> (weighted = true -> forall i, i < n -> vget d i <> 0q) -> exact_optimiser slsqp -> is_reversible m = Ok false ->
  match mc_closest_reversible slsqp (en_p m) d weighted with
  | Err e => e = ValueErr /\ closest_reversible slsqp nx m dist weighted = Err ValueErr
  | Ok q => closest_for weighted n d (en_p m) q /\ (exists pi, distribution n pi /\ stationary n q pi /\ time_reversible n q pi) /\
            (one_recurrent_class n q -> closest_reversible slsqp nx m dist weighted = Ok (mkchain q (en_names m))) /\
            (~ one_recurrent_class n q -> closest_reversible slsqp nx m dist weighted = Err ValueErr)
  end.
Proof. exact closest_other. Qed.
Print Assumptions C128_not_reversible_partial.
Theorem C128_result_partial : forall slsqp nx n m dist d weighted, env_ok n m -> (forall p, stochastic n p -> nx_ok n p (nx p)) ->
  forall c, used_distribution n dist d -> exact_optimiser slsqp -> closest_reversible slsqp nx m dist weighted = Ok c ->
  ch_states c = en_names m /\ ((is_reversible m = Ok true /\ ch_p c = en_p m) \/ (is_reversible m = Ok false /\ closest_for weighted n d (en_p m) (ch_p c))).
Proof. exact closest_result. Qed.
Print Assumptions C128_result_partial.
Theorem C128_null_weight : forall slsqp nx n m dist d weighted, env_ok n m ->
  forall i, used_distribution n dist d -> weighted = true -> i < n -> vget d i = 0q -> closest_reversible slsqp nx m dist weighted = Err ValueErr.
Proof. exact closest_null_weight. Qed.
Print Assumptions C128_null_weight.
Theorem C128_bad_distribution : forall slsqp nx n m v weighted, env_ok n m -> (forall d, ~ used_distribution n (Some v) d) ->
  closest_reversible slsqp nx m (Some v) weighted = Err ValueErr.
Proof. exact closest_bad_distribution. Qed.
Print Assumptions C128_bad_distribution.
(** A chain with two absorbing states is symmetric and is its own closest reversible chain, yet the method always fails on it. *)
Theorem C128_refused_refuted : exists n m, env_ok n m /\ closest_for false n (uniform n) (en_p m) (en_p m) /\
  forall slsqp nx, exact_optimiser slsqp -> (forall p, stochastic n p -> nx_ok n p (nx p)) -> closest_reversible slsqp nx m None false = Err ValueErr.
Proof. exact closest_refused. Qed.
Print Assumptions C128_refused_refuted.
(** The chain returned without a distribution is not the closest of all reversible chains. *)
Theorem C128_nearest_refuted : exists n m Q, env_ok n m /\ some_reversible n Q /\
  (forall slsqp nx c, exact_optimiser slsqp -> (forall p, stochastic n p -> nx_ok n p (nx p)) -> closest_reversible slsqp nx m None false = Ok c ->
     (dist2 false n (uniform n) Q (en_p m) < dist2 false n (uniform n) (ch_p c) (en_p m))%Qc) /\
  (exists slsqp c, exact_optimiser slsqp /\ closest_reversible slsqp nx_default m None false = Ok c).
Proof. exact not_nearest. Qed.
Print Assumptions C128_nearest_refuted.
Example C128_example : env_ok 3 (env cDrift) /\ used_distribution 3 None (uniform 3) /\ is_reversible (env cDrift) = Ok false /\
  (exists slsqp, exact_optimiser slsqp /\ closest_reversible slsqp nx_default (env cDrift) None false = Ok (mkchain (symmetrised 3 (ch_p cDrift)) (ch_states cDrift))) /\
  used_distribution 2 (Some (qv [1; 0]%Q)) (qv [1; 0]%Q) /\ (forall d, ~ used_distribution 2 (Some (qv [1; 1]%Q)) d).
Proof.
  split; [exact drift_ok|]. split; [reflexivity|]. split; [exact drift_refused|]. split; [exact drift_returned|]. split.
  - split; [reflexivity|]. split; [reflexivity|]. split; [intros [|[|]] Hi; try lia; split; discriminate|]. apply Qcleb_le. vm_compute. reflexivity.
  - intros d (_ & _ & _ & H). apply Qcleb_le in H. vm_compute in H. discriminate.
Qed.
