(** P_FloatRew: expected rewards in binary64 arithmetic (theorems only).  [rnd] is rounding to the nearest double, [uu] is
    2^-53; [q] and [r] are the probabilities and rewards as the user typed them; [dotting dt]: any order and grouping of the sums. *)
From Coq Require Import Reals Lra Lia List ZArith.
From Flocq Require Import Core.
From Verif Require Import Fl M_Float S_Float L_Float1 L_FloatRed M_FloatRew S_FloatRew L_FloatRew.
Import ListNotations.
Local Open Scope R_scope.

(** ** C187 expected rewards in floating point *)
Theorem C187_accurate : forall dt n q r M k i, dotting dt -> (1 <= n)%nat -> INR n <= 1000000 -> INR k <= 1000000 -> stochasticR n q ->
  / 10 ^ 100 <= M -> (forall i, (i < n)%nat -> Rabs (r i) <= M) -> (i < n)%nat ->
  Rabs (f_rewards dt n (fun i j => rnd (q i j)) (fun i => rnd (r i)) k i - total_reward n q r k i) <= 9 * (INR k + 1) ^ 2 * INR n * uu * M.
Proof. exact typed_rewards. Qed.
Print Assumptions C187_accurate.
Theorem C187_at_least_the_first_reward : forall dt n p r k, dotting dt -> (forall i j, (i < n)%nat -> (j < n)%nat -> 0 <= p i j) ->
  (forall i, (i < n)%nat -> is_double (r i) /\ 0 <= r i) -> forall i, (i < n)%nat -> r i <= f_rewards dt n p r k i.
Proof. exact rewards_at_least. Qed.
Print Assumptions C187_at_least_the_first_reward.
Example C187_example : dotting seq_dot /\ stochasticR 2 coin /\ (forall i, (i < 2)%nat -> Rabs (stakes i) <= 3) /\
  total_reward 2 coin stakes 2 0 = - 1 /\
  Rabs (f_rewards seq_dot 2 (fun i j => rnd (coin i j)) (fun i => rnd (stakes i)) 2 0 - - 1) <= 9 * (INR 2 + 1) ^ 2 * INR 2 * uu * 3.
Proof.
  split; [exact seq_dotting|]. split; [exact coin_stochastic|]. split; [exact stakes_bound|]. split; [exact stakes_total|].
  rewrite <- stakes_total.
  apply (typed_rewards seq_dot 2 coin stakes 3 2 0 seq_dotting); [lia|simpl; lra|simpl; lra|exact coin_stochastic| |exact stakes_bound|lia].
  apply Rle_trans with 1; [|lra]. rewrite <- Rinv_1. apply Rinv_le_contravar; [lra|]. apply pow_R1_Rle. lra.
Qed.
