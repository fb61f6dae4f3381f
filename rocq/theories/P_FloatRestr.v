(** P_FloatRestr: restricted hidden models in binary64 arithmetic (theorems only).  [summing sm]: any order and grouping of the
    sums; [is_share k w j x]: x is the share of weight j among k weights; [uu] is 2^-53 and [tiny] 2^-1075. *)
From Coq Require Import Reals Lra Lia List ZArith.
From Flocq Require Import Core.
From Verif Require Import Fl M_Float S_Float L_Float1 L_FloatMoran L_FloatUrn M_FloatNorm S_FloatNorm L_FloatNorm M_FloatUrn M_FloatRestr L_FloatRestr.
From Verif Require Import L_FloatSub.
Import ListNotations.
Local Open Scope R_scope.

(** ** C196 restricted hidden models in floating point *)
Theorem C196_accepted : forall sm0 sm n k p e ss sy, summing sm -> INR n <= 1000000000 -> INR k <= 1000000000 ->
  f_accepts sm0 n p -> f_accepts_emission sm0 n k e -> (2 <= length ss < n)%nat -> (2 <= length sy <= k)%nat ->
  (forall i, In i ss -> (i < n)%nat) -> (forall i, In i sy -> (i < k)%nat) -> forall sm', summing sm' ->
  f_accepts sm' (length ss) (f_restrict_p sm n ss p) /\ f_accepts_emission sm' (length ss) (length sy) (f_restrict_e sm n ss sy e).
Proof. exact restrict_accepted. Qed.
Print Assumptions C196_accepted.
Theorem C196_transitions : forall sm0 sm n p ss, summing sm -> INR n <= 1000000000 -> f_accepts sm0 n p -> (2 <= length ss < n)%nat ->
  (forall i, In i ss -> (i < n)%nat) -> forall i j x, (i < length ss)%nat -> (j < length ss)%nat ->
  is_share (length ss) (fun l => p (nth i ss 0%nat) (nth l ss 0%nat)) j x ->
  Rabs (f_restrict_p sm n ss p i j - x) <= 4 * INR (length ss) * uu * x + tiny.
Proof. exact restrict_p_near. Qed.
Print Assumptions C196_transitions.
(** also when all the states are kept, for fewer symbols than states *)
Theorem C196_emissions : forall sm0 sm n k e ss sy, summing sm -> INR k <= 1000000000 -> f_accepts_emission sm0 n k e ->
  (length ss < n \/ length sy < n)%nat -> (2 <= length sy <= k)%nat -> (forall i, In i ss -> (i < n)%nat) -> (forall i, In i sy -> (i < k)%nat) ->
  (forall i j x, (i < length ss)%nat -> (j < length sy)%nat ->
    is_share (length sy) (fun l => e (nth i ss 0%nat) (nth l sy 0%nat)) j x ->
    Rabs (f_restrict_e sm n ss sy e i j - x) <= 4 * INR (length sy) * uu * x + tiny) /\
  forall sm', summing sm' -> f_accepts_emission sm' (length ss) (length sy) (f_restrict_e sm n ss sy e).
Proof. exact restrict_e_near. Qed.
Print Assumptions C196_emissions.
(** when no state is dropped, the transition matrix stays as it is *)
Theorem C196_all_states : forall sm sm' n ss p, (n <= length ss)%nat -> f_accepts sm' n p ->
  f_accepts sm' n (f_restrict_p sm n ss p) /\ forall i j, f_restrict_p sm n ss p i j = p i j.
Proof. exact restrict_all. Qed.
Print Assumptions C196_all_states.
(** three states, the last never entered; the last two are kept, so that the first row of the result is proportional to
    (1/2, 0) and the emissions are kept whole *)
Example C196_example : f_accepts seq_sum 3 inner /\
  f_accepts seq_sum 2 (f_restrict_p seq_sum 3 [1; 2]%nat inner) /\ f_accepts_emission seq_sum 2 2 (f_restrict_e seq_sum 3 [1; 2]%nat [0; 1]%nat (fun _ _ => 1 / 2)) /\
  Rabs (f_restrict_p seq_sum 3 [1; 2]%nat inner 0%nat 0%nat - 1) <= 8 * uu + tiny.
Proof.
  assert (D : forall i j, is_double (inner i j) /\ 0 <= inner i j <= 1).
  { intros i j. unfold inner. destruct (Nat.eqb j 2); [split; [apply is_double_0|lra]|split; [exact half_double|lra]]. }
  assert (A : f_accepts seq_sum 3 inner).
  { split; [lia|]. split; [intros i j _ _; apply D|]. intros i _. apply row_close; [exact seq_summing|simpl; lra|intros j _; apply D|].
    change (rsumn 3 (inner i)) with (1 / 2 + (1 / 2 + (0 + 0))). replace (1 / 2 + (1 / 2 + (0 + 0)) - 1) with 0 by lra. rewrite Rabs_R0. unfold e16. lra. }
  assert (E : f_accepts_emission seq_sum 3 2 (fun _ _ => 1 / 2)).
  { split; [lia|]. split; [intros i j _ _; split; [exact half_double|lra]|]. intros i _. apply row_close; [exact seq_summing|simpl; lra|intros j _; split; [exact half_double|lra]|].
    rewrite rsumn_const. replace (INR 2 * (1 / 2) - 1) with 0 by (simpl; lra). rewrite Rabs_R0. unfold e16. lra. }
  split; [exact A|].
  destruct (restrict_accepted seq_sum seq_sum 3 2 inner (fun _ _ => 1 / 2) [1; 2]%nat [0; 1]%nat seq_summing ltac:(simpl; lra) ltac:(simpl; lra) A E
    ltac:(simpl; lia) ltac:(simpl; lia) ltac:(simpl; lia) ltac:(simpl; lia) seq_sum seq_summing) as [X Y].
  split; [exact X|]. split; [exact Y|].
  pose proof (restrict_p_near seq_sum seq_sum 3 inner [1; 2]%nat seq_summing ltac:(simpl; lra) A ltac:(simpl; lia) ltac:(simpl; lia) 0 0 1 ltac:(simpl; lia) ltac:(simpl; lia)) as N.
  eapply Rle_trans; [apply N|].
  - right. split; [exists 0%nat; split; [simpl; lia|unfold inner; simpl; lra]|]. unfold rsumn, inner. simpl. lra.
  - simpl. lra.
Qed.
