(** P_FloatSub: subchains in binary64 arithmetic (theorems only).  [summing sm]: any order and grouping of the sums;
    [closed_states n p idx]: no state of [idx] leads outside; [tiny] is 2^-1075. *)
From Coq Require Import Reals Lra Lia List ZArith.
From Flocq Require Import Core.
From Verif Require Import Fl M_Float S_Float L_Float1 L_FloatNorm L_FloatMoran M_FloatUrn L_FloatUrn M_FloatSub S_FloatSub L_FloatSub.
Import ListNotations.
Local Open Scope R_scope.

(** ** C194 subchains in floating point *)
Theorem C194_accepted : forall sm0 sm n p idx, summing sm0 -> summing sm -> INR n <= 1000000000 -> f_accepts sm0 n p -> closed_states n p idx ->
  (2 <= length idx)%nat -> forall sm', summing sm' -> f_accepts sm' (length idx) (f_sub sm idx p).
Proof. exact sub_accepted. Qed.
Print Assumptions C194_accepted.
Theorem C194_same_moves : forall sm0 sm n p idx, summing sm0 -> summing sm -> INR n <= 1000000000 -> f_accepts sm0 n p -> closed_states n p idx ->
  (2 <= length idx)%nat -> forall i j, (i < length idx)%nat -> (j < length idx)%nat ->
  let w := p (nth i idx 0%nat) (nth j idx 0%nat) in
  Rabs (f_sub sm idx p i j - w) <= 2 / 100000 * w + tiny /\ (0 < f_sub sm idx p i j <-> 0 < w).
Proof. exact sub_near. Qed.
Print Assumptions C194_same_moves.
Example C194_example : f_accepts seq_sum 3 inner /\ closed_states 3 inner [0; 1]%nat /\
  f_accepts seq_sum 2 (f_sub seq_sum [0; 1]%nat inner) /\ 0 < f_sub seq_sum [0; 1]%nat inner 0%nat 1%nat.
Proof.
  assert (D : forall i j, is_double (inner i j) /\ 0 <= inner i j <= 1).
  { intros i j. unfold inner. destruct (Nat.eqb j 2); [split; [apply is_double_0|lra]|split; [exact half_double|lra]]. }
  assert (A : f_accepts seq_sum 3 inner).
  { split; [lia|]. split; [intros i j _ _; apply D|]. intros i _. apply row_close; [exact seq_summing|simpl; lra|intros j _; apply D|].
    change (rsumn 3 (inner i)) with (1 / 2 + (1 / 2 + (0 + 0))). replace (1 / 2 + (1 / 2 + (0 + 0)) - 1) with 0 by lra. rewrite Rabs_R0. unfold e16. lra. }
  assert (K : closed_states 3 inner [0; 1]%nat).
  { split; [repeat constructor; simpl; lia|]. split; [simpl; lia|]. intros i j _ J H. unfold inner.
    destruct (Nat.eqb_spec j 2) as [e|e]; [reflexivity|]. exfalso. apply H. simpl. lia. }
  split; [exact A|]. split; [exact K|]. split.
  - apply (sub_accepted seq_sum seq_sum 3 inner [0; 1]%nat seq_summing seq_summing ltac:(simpl; lra) A K ltac:(simpl; lia) seq_sum seq_summing).
  - apply (sub_near seq_sum seq_sum 3 inner [0; 1]%nat seq_summing seq_summing ltac:(simpl; lra) A K ltac:(simpl; lia) 0 1 ltac:(simpl; lia) ltac:(simpl; lia)). unfold inner. simpl. lra.
Qed.
