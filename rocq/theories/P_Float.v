(** P_Float: properties of the library in binary64 arithmetic (theorems only).
    [rnd] is rounding to the nearest double, [uu] is 2^-53. *)
From Coq Require Import Reals Lra Lia List ZArith.
From Flocq Require Import Core.
From Verif Require Import Fl M_Float S_Float L_Float1 L_Float2 L_Float3 L_Float4 ExFloat.
Local Open Scope R_scope.

(** ** C149 the check of the row sums *)
Theorem C149_typed_accepted : forall sm n p, summing sm -> (2 <= n)%nat -> INR n <= 10000000000 ->
  stochasticR n p -> f_accepts sm n (fun i j => rnd (p i j)).
Proof. exact typed_accepted. Qed.
Print Assumptions C149_typed_accepted.
Theorem C149_accepted_sums : forall sm n p, summing sm -> INR n <= 1000000 -> f_accepts sm n p ->
  forall i, (i < n)%nat -> Rabs (rsumn n (p i) - 1) <= 10011 / 1000000000.
Proof. exact accepted_sums. Qed.
Print Assumptions C149_accepted_sums.
Example C149_example : summing seq_sum /\ stochasticR 4 pN /\ INR 4 <= 1000000 /\ f_accepts seq_sum 4 dN /\ f_accepts seq_sum 10 pR.
Proof.
  split; [exact seq_summing|]. split; [exact pN_stochastic|]. split; [simpl; lra|].
  split; [|apply pR_accepted, seq_summing].
  apply (typed_accepted seq_sum 4 pN seq_summing); [lia|simpl; lra|exact pN_stochastic].
Qed.

(** ** C150 mixtures stay chains *)
Theorem C150_merge_range : forall g p q i j, is_double g -> 0 <= g <= 1 -> 0 <= p i j <= 1 -> 0 <= q i j <= 1 ->
  is_double (f_merge g p q i j) /\ 0 <= f_merge g p q i j <= 1.
Proof. exact merge_range. Qed.
Print Assumptions C150_merge_range.
Theorem C150_merge_sums : forall n g p q e, (0 < n)%nat -> INR n <= 10000000000 -> is_double g -> 0 <= g <= 1 -> 0 <= e <= 1 ->
  (forall i j, (i < n)%nat -> (j < n)%nat -> 0 <= p i j /\ 0 <= q i j) ->
  (forall i, (i < n)%nat -> Rabs (rsumn n (p i) - 1) <= e /\ Rabs (rsumn n (q i) - 1) <= e) ->
  forall i, (i < n)%nat -> Rabs (rsumn n (f_merge g p q i) - 1) <= e + 16 * uu.
Proof. exact merge_sums. Qed.
Print Assumptions C150_merge_sums.
Theorem C150_lazy_range : forall w p i j, is_double (w i) -> 0 <= w i <= 1 -> 0 <= p i j <= 1 ->
  is_double (f_lazy w p i j) /\ 0 <= f_lazy w p i j <= 1.
Proof. exact lazy_range. Qed.
Print Assumptions C150_lazy_range.
Theorem C150_lazy_sums : forall n w p e, (0 < n)%nat -> INR n <= 10000000000 -> 0 <= e <= 1 ->
  (forall i, (i < n)%nat -> is_double (w i) /\ 0 <= w i <= 1) ->
  (forall i j, (i < n)%nat -> (j < n)%nat -> 0 <= p i j) ->
  (forall i, (i < n)%nat -> Rabs (rsumn n (p i) - 1) <= e) ->
  forall i, (i < n)%nat -> Rabs (rsumn n (f_lazy w p i) - 1) <= e + 16 * uu.
Proof. exact lazy_sums. Qed.
Print Assumptions C150_lazy_sums.
Example C150_example : is_double (rnd (10 / 100)) /\ 0 <= rnd (10 / 100) <= 1 /\
  (forall i j, (i < 3)%nat -> (j < 3)%nat -> 0 <= dL i j /\ 0 <= f_lazy (fun _ => rnd (10 / 100)) dL i j) /\
  (forall i, (i < 3)%nat -> Rabs (rsumn 3 (dL i) - 1) <= 10011 / 1000000000).
Proof.
  split; [apply is_double_rnd|]. split; [rewrite r10; lra|]. destruct pL_stochastic as [A B].
  assert (N : INR 3 <= 1000000) by (simpl; lra).
  assert (F : f_accepts seq_sum 3 dL) by (apply (typed_accepted seq_sum 3 pL seq_summing); [lia|simpl; lra|exact pL_stochastic]).
  split.
  - intros i j I J. destruct F as (_ & F & _). destruct (F i j I J) as [_ F']. split; [apply F'|].
    apply lazy_range; [apply is_double_rnd|rewrite r10; lra|exact F'].
  - exact (accepted_sums seq_sum 3 dL seq_summing N F).
Qed.

(** ** C151 to_nth_order *)
Theorem C151_above_one_refuted : stochasticR 4 pN /\ dN = (fun i j => rnd (pN i j)) /\
  1 < f_nth_order seq_dot 4 dN 2 0%nat 3%nat /\
  forall sm, ~ f_accepts sm 4 (f_nth_order seq_dot 4 dN 2).
Proof. exact nth_order_rejected. Qed.
Print Assumptions C151_above_one_refuted.
Theorem C151_rows_partial : forall dt n p e k, dotting dt -> INR n <= 1000000000 -> 0 <= e <= 1 ->
  (forall i j, (i < n)%nat -> (j < n)%nat -> 0 <= p i j) ->
  (forall i, (i < n)%nat -> Rabs (rsumn n (p i) - 1) <= e) ->
  INR (Pos.to_nat k) * (e + 4 * (INR (S n) * uu)) <= / 2 ->
  (forall i j, (i < n)%nat -> (j < n)%nat -> 0 <= f_nth_order dt n p k i j) /\
  (forall i, (i < n)%nat -> Rabs (rsumn n (f_nth_order dt n p k i) - 1) <= 2 * (INR (Pos.to_nat k) * (e + 4 * (INR (S n) * uu)))).
Proof. exact nth_order_rows. Qed.
Print Assumptions C151_rows_partial.
Example C151_example : dotting seq_dot /\ INR (Pos.to_nat 1000) * (10011 / 1000000000 + 4 * (INR 11 * uu)) <= / 2.
Proof.
  split; [exact seq_dotting|]. rewrite uu_val, !INR_IZR_INZ. replace (Z.of_nat (Pos.to_nat 1000)) with 1000%Z by reflexivity.
  simpl Z.of_nat. lra.
Qed.

(** ** C152 is_regular *)
Theorem C152_underflow_refuted : forall sm dt, summing sm -> dotting dt ->
  f_accepts sm 10 pR /\ (forall i, (i < 10)%nat -> pR i i = 0) /\
  (forall i j, (i < 10)%nat -> (j < 10)%nat -> 0 < steps 10 pR 2 i j) /\
  ~ f_is_regular dt 10 0 pR.
Proof. exact regular_underflow. Qed.
Print Assumptions C152_underflow_refuted.
Theorem C152_sound_partial : forall dt n nz p, dotting dt ->
  (forall i j, (i < n)%nat -> (j < n)%nat -> 0 <= p i j) -> f_is_regular dt n nz p ->
  exists k, (1 <= k)%nat /\ forall i j, (i < n)%nat -> (j < n)%nat -> 0 < steps n p k i j.
Proof. exact regular_sound. Qed.
Print Assumptions C152_sound_partial.
Theorem C152_exact_partial : forall dt n nz p (e : nat), dotting dt ->
  (forall i j, (i < n)%nat -> (j < n)%nat -> 0 <= p i j) ->
  (forall i j, (i < n)%nat -> (j < n)%nat -> 0 < p i j -> bpow radix2 (- Z.of_nat e) <= p i j) ->
  (0 < regular_exponent n nz)%Z -> (Z.of_nat e * regular_exponent n nz <= 1074)%Z ->
  (f_is_regular dt n nz p <-> forall i j, (i < n)%nat -> (j < n)%nat -> 0 < steps n p (Z.to_nat (regular_exponent n nz)) i j).
Proof. exact regular_exact. Qed.
Print Assumptions C152_exact_partial.
Example C152_example : (forall i j, (i < 3)%nat -> (j < 3)%nat -> 0 < dL i j -> bpow radix2 (- Z.of_nat 4) <= dL i j) /\
  (Z.of_nat 4 * regular_exponent 3 2 <= 1074)%Z /\ (0 < regular_exponent 3 2)%Z.
Proof. exact dL_sizes. Qed.

(** ** C153 lump and lumping_partitions *)
Theorem C153_fixture_refuted : stochasticR 3 pL /\ lumpableR 3 pL blkL /\ dL = (fun i j => rnd (pL i j)) /\
  forall dt, dotting dt -> ~ f_lumpable dt 3 2 dL blkL.
Proof. exact lump_rejected. Qed.
Print Assumptions C153_fixture_refuted.
Theorem C153_star_refuted : lumpableR 7 dS blkS /\ ~ f_lumpable seq_dot 7 2 dS blkS.
Proof. exact (conj dS_lumpable dS_not_lumpable). Qed.
Print Assumptions C153_star_refuted.
Theorem C153_nearly_partial : forall dt n m p blk, dotting dt -> INR n <= 1000000000 ->
  (forall i j, (i < n)%nat -> (j < n)%nat -> 0 <= p i j) ->
  (forall i, (i < n)%nat -> rsumn n (p i) <= 2) -> f_lumpable dt n m p blk ->
  forall i i' b, (i < n)%nat -> (i' < n)%nat -> blk i = blk i' -> (b < m)%nat ->
  Rabs (into n p blk i b - into n p blk i' b) <= 32 * (INR n * uu).
Proof. exact lumped_nearly. Qed.
Print Assumptions C153_nearly_partial.
Example C153_example : exists p, (forall i, (i < 3)%nat -> rsumn 3 (p i) = 1) /\ p 1%nat 1%nat <> p 2%nat 1%nat /\
  forall dt, dotting dt -> f_lumpable dt 3 2 p blkL.
Proof. exact lumped_example. Qed.
