(** P_FloatSeq: probabilities of sequences in binary64 arithmetic (theorems only).  [rnd] is rounding to the nearest
    double, [uu] is 2^-53; [lg] and [ex] are any logarithm and exponential within two units in the last place. *)
From Coq Require Import Reals Lra Lia List ZArith.
From Flocq Require Import Core.
From Verif Require Import Fl M_Float S_Float L_Float1 M_FloatSeq S_FloatSeq L_FloatSeq.
Import ListNotations.
Local Open Scope R_scope.

(** ** C184 the probability of a sequence in floating point *)
Theorem C184_accurate_partial : forall lg ex n q w, log_ok lg -> exp_ok ex -> INR (length w) <= 1000000000000 -> stochasticR n q ->
  (forall i, In i w -> (i < n)%nat) ->
  Rabs (f_sequence_probability lg ex (fun i j => rnd (q i j)) w - walkR q w) <= 17 * INR (S (length w)) * uu.
Proof. exact typed_sequence. Qed.
Print Assumptions C184_accurate_partial.
Theorem C184_impossible_partial : forall lg ex p w, blocked p w -> f_sequence_probability lg ex p w = 0.
Proof. exact blocked_zero. Qed.
Print Assumptions C184_impossible_partial.
Theorem C184_underflow_refuted : forall lg k, log_ok lg -> (1100 <= k)%nat -> INR k <= 1000000 ->
  f_sequence_probability lg (fun x => rnd (exp x)) halves (repeat 0%nat (S k)) = 0 /\
  walkR halves (repeat 0%nat (S k)) = / 2 ^ k /\ 0 < walkR halves (repeat 0%nat (S k)).
Proof. exact long_stay. Qed.
Print Assumptions C184_underflow_refuted.
Example C184_example : log_ok (fun x => rnd (ln x)) /\ exp_ok (fun x => rnd (exp x)) /\ stochasticR 2 halves /\
  INR 1100 <= 1000000 /\ walkR halves [0%nat; 1%nat; 1%nat] = 1 / 4 /\ blocked (fun i j => if Nat.eqb i j then 1 else 0) [0%nat; 0%nat; 1%nat] /\
  Rabs (f_sequence_probability (fun x => rnd (ln x)) (fun x => rnd (exp x)) (fun i j => rnd (halves i j)) [0%nat; 1%nat; 1%nat] - 1 / 4)
    <= 17 * INR 4 * uu.
Proof.
  split; [exact rounded_log|]. split; [exact rounded_exp|]. split; [exact halves_stochastic|].
  split; [rewrite INR_IZR_INZ; simpl; lra|].
  assert (W : walkR halves [0%nat; 1%nat; 1%nat] = 1 / 4) by (cbn [walkR]; unfold halves; lra).
  split; [exact W|]. split; [cbn [blocked Nat.eqb]; right; left; lra|]. rewrite <- W.
  apply (typed_sequence _ _ 2 halves [0%nat; 1%nat; 1%nat] rounded_log rounded_exp); [simpl; lra|exact halves_stochastic|].
  intros i [<-|[<-|[<-|[]]]]; lia.
Qed.
