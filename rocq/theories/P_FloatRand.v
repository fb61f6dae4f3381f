(** P_FloatRand: random chains in binary64 arithmetic (theorems only).  [summing sm]: any order and grouping of the sums;
    [free]: the columns filled with drawn numbers; [share]: what the given values leave, in proportion to those numbers;
    [tiny] is 2^-1075. *)
From Coq Require Import Reals Lra Lia List ZArith.
From Flocq Require Import Core.
From Verif Require Import Fl M_Float S_Float L_Float1 L_Float2 L_FloatMoran L_FloatUrn M_FloatNorm M_FloatRand S_FloatRand L_FloatRand.
Import ListNotations.
Local Open Scope R_scope.

(** ** C195 random chains in floating point *)
Theorem C195_accepted : forall sm0 sm n free (v : nat -> nat -> R), summing sm0 -> summing sm -> (2 <= n)%nat -> INR n <= 1000000000 ->
  (forall i j, (i < n)%nat -> (j < n)%nat -> is_double (v i j) /\ 0 <= v i j <= 1) ->
  (forall i, (i < n)%nat ->
    (f_given sm0 n (free i) (v i) <= 1 /\ ~ f_close1 (f_given sm0 n (free i) (v i)) /\ exists j, (j < n)%nat /\ free i j = true /\ 0 < v i j) \/
    ((forall j, (j < n)%nat -> free i j = false) /\ Rabs (rsumn n (v i) - 1) <= 9 / 1000000)) ->
  forall sm', summing sm' -> f_accepts sm' n (fun i => f_random_row sm n (free i) (v i)).
Proof. exact rand_accepted. Qed.
Print Assumptions C195_accepted.
(** the same for the emission matrix of a random hidden model, with r states and k symbols *)
Theorem C195_emission_accepted : forall sm0 sm r k free (v : nat -> nat -> R), summing sm0 -> summing sm -> (2 <= k)%nat -> INR k <= 1000000000 ->
  (forall i j, (i < r)%nat -> (j < k)%nat -> is_double (v i j) /\ 0 <= v i j <= 1) ->
  (forall i, (i < r)%nat ->
    (f_given sm0 k (free i) (v i) <= 1 /\ ~ f_close1 (f_given sm0 k (free i) (v i)) /\ exists j, (j < k)%nat /\ free i j = true /\ 0 < v i j) \/
    ((forall j, (j < k)%nat -> free i j = false) /\ Rabs (rsumn k (v i) - 1) <= 9 / 1000000)) ->
  forall sm', summing sm' -> f_accepts_emission sm' r k (fun i => f_random_row sm k (free i) (v i)).
Proof. exact rand_rows. Qed.
Print Assumptions C195_emission_accepted.
Theorem C195_proportional : forall sm0 sm n free v, summing sm0 -> summing sm -> INR n <= 1000000000 ->
  (forall j, (j < n)%nat -> is_double (v j) /\ 0 <= v j <= 1) ->
  f_given sm0 n free v <= 1 -> ~ f_close1 (f_given sm0 n free v) -> (exists j, (j < n)%nat /\ free j = true /\ 0 < v j) ->
  forall j, (j < n)%nat -> free j = true ->
  Rabs (f_random_row sm n free v j - share n free v j) <= / 1000000 * (v j / total n free v) + tiny.
Proof. exact fill_near. Qed.
Print Assumptions C195_proportional.
Theorem C195_given_kept : forall sm n free v j, free j = false -> f_random_row sm n free v j = v j.
Proof. exact fill_kept. Qed.
Print Assumptions C195_given_kept.
Example C195_example : let free := fun j => negb (Nat.eqb j 0) in let v := fun _ : nat => 1 / 2 in
  f_accepts seq_sum 3 (fun _ => f_random_row seq_sum 3 free v) /\ share 3 free v 1%nat = 1 / 4 /\
  Rabs (f_random_row seq_sum 3 free v 1%nat - 1 / 4) <= / 2000000 + tiny /\ f_random_row seq_sum 3 free v 0%nat = 1 / 2.
Proof.
  intros free v.
  assert (D : forall j, (j < 3)%nat -> is_double (v j) /\ 0 <= v j <= 1) by (intros j _; split; [exact half_double|unfold v; lra]).
  destruct (row_bounds seq_sum 3 (fun j => if free j then 0 else v j) seq_summing) as [[F _] [L U]].
  { intros j J. destruct (free j); [split; [apply is_double_0|lra]|destruct (D j J); split; [assumption|lra]]. }
  fold (f_given seq_sum 3 free v) in F, L, U.
  assert (E : rsumn 3 (fun j => if free j then 0 else v j) = 1 / 2) by (unfold rsumn, free, v; simpl; lra). rewrite E in L, U.
  pose proof (lohi 3 ltac:(simpl; lra)) as [_ H].
  assert (G1 : f_given seq_sum 3 free v <= 1) by lra.
  assert (G2 : ~ f_close1 (f_given seq_sum 3 free v)) by (intros C; pose proof (Rabs_le_inv _ _ (close_out _ F C)); lra).
  assert (P : exists j, (j < 3)%nat /\ free j = true /\ 0 < v j) by (exists 1%nat; repeat split; [lia|unfold v; lra]).
  assert (T : total 3 free v = 1) by (unfold total, rsumn, free, v; simpl; lra).
  assert (Q : share 3 free v 1%nat = 1 / 4) by (unfold share; rewrite T; unfold total, rsumn, free, v; simpl; lra).
  split; [|split; [exact Q|split]].
  - apply (rand_accepted seq_sum seq_sum 3 (fun _ => free) (fun _ => v) seq_summing seq_summing ltac:(lia) ltac:(simpl; lra)).
    + intros i j _. apply D.
    + intros i _. left. repeat split; assumption.
    + exact seq_summing.
  - pose proof (fill_near seq_sum seq_sum 3 free v seq_summing seq_summing ltac:(simpl; lra) D G1 G2 P 1%nat ltac:(lia) eq_refl) as N.
    rewrite Q, T in N. unfold v in N at 2. lra.
  - apply fill_kept. reflexivity.
Qed.
