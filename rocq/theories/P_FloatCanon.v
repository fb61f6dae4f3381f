(** P_FloatCanon: the canonical form in binary64 arithmetic (theorems only).  [summing sm]: any order and grouping of the
    sums; [seq_sum]: from left to right; [tr] and [rc] list the transient and the recurrent states. *)
From Coq Require Import Reals Lra Lia List ZArith Permutation.
From Flocq Require Import Core.
From Verif Require Import Fl M_Float S_Float L_Float1 L_FloatMoran M_FloatUrn L_FloatUrn M_FloatCanon S_FloatCanon L_FloatCanon.
Import ListNotations.
Local Open Scope R_scope.

(** ** C192 the canonical form in floating point *)
Theorem C192_accepted_partial : forall sm sm' n tr rc p, summing sm -> summing sm' -> INR n <= 1000000000 ->
  Permutation (tr ++ rc) (seq 0 n) -> f_accepts sm n p -> (forall i, (i < n)%nat -> Rabs (rsumn n (p i) - 1) <= 9 / 1000000) ->
  f_accepts sm' n (f_canonical tr rc p).
Proof. exact canonical_accepted. Qed.
Print Assumptions C192_accepted_partial.
Theorem C192_same_chain_partial : forall tr rc n p, Permutation (tr ++ rc) (seq 0 n) -> exists pos, reordered n pos p (f_canonical tr rc p).
Proof. exact canonical_reordered. Qed.
Print Assumptions C192_same_chain_partial.
Theorem C192_blocks_partial : forall tr rc n p, Permutation (tr ++ rc) (seq 0 n) -> (forall r t, In r rc -> In t tr -> p r t = 0) ->
  blocks n (length tr) (f_canonical tr rc p).
Proof. exact canonical_blocks. Qed.
Print Assumptions C192_blocks_partial.
Theorem C192_rejected_refuted : f_accepts seq_sum 3 edge /\ Permutation ([1; 2] ++ [0])%nat (seq 0 3) /\
  (forall r t, In r [0%nat] -> In t [1; 2]%nat -> edge r t = 0) /\ 0 < edge 1%nat 0%nat /\ 0 < edge 2%nat 0%nat /\
  ~ f_accepts seq_sum 3 (f_canonical [1; 2]%nat [0%nat] edge).
Proof. exact canonical_rejected. Qed.
Print Assumptions C192_rejected_refuted.
Example C192_example : let p := f_bounded 3 (f_ehrenfest 1) Absorbing in
  f_accepts seq_sum 3 p /\ f_accepts seq_sum 3 (f_canonical [1]%nat [0; 2]%nat p) /\
  blocks 3 1 (f_canonical [1]%nat [0; 2]%nat p) /\ f_canonical [1]%nat [0; 2]%nat p 1%nat 1%nat = 1.
Proof.
  intros p. assert (A : f_accepts seq_sum 3 p).
  { apply (bounded_accepted seq_sum 3 _ Absorbing seq_summing ltac:(simpl; lra) (ehrenfest_accepted seq_sum 1 seq_summing ltac:(lia) ltac:(simpl; lra)) I). }
  assert (P : Permutation ([1] ++ [0; 2])%nat (seq 0 3)) by apply perm_swap.
  split; [exact A|]. split; [|split].
  - apply (canonical_accepted seq_sum seq_sum 3 _ _ p seq_summing seq_summing ltac:(simpl; lra) P A).
    intros i H. destruct i as [|[|[|i]]]; [| | |lia].
    + change (Rabs (1 + (0 + (0 + 0)) - 1) <= 9 / 1000000). replace (1 + (0 + (0 + 0)) - 1) with 0 by ring. rewrite Rabs_R0. lra.
    + pose proof (ehrenfest_total 1 ltac:(lia) ltac:(simpl; lra) 1 ltac:(lia)) as T. eapply Rle_trans; [exact T|unfold e16; lra].
    + change (Rabs (0 + (0 + (1 + 0)) - 1) <= 9 / 1000000). replace (0 + (0 + (1 + 0)) - 1) with 0 by ring. rewrite Rabs_R0. lra.
  - apply (canonical_blocks [1]%nat [0; 2]%nat 3 p P). intros r t [<-|[<-|[]]] [<-|[]]; reflexivity.
  - reflexivity.
Qed.
