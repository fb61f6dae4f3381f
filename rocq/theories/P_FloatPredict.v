(** P_FloatPredict: predictions in binary64 arithmetic (theorems only).  [rnd] is rounding to the nearest double, [uu] is
    2^-53; [q] are the probabilities as the user typed them. *)
From Coq Require Import Reals Lra Lia List ZArith.
From Flocq Require Import Core.
From Verif Require Import Fl M_Float S_Float M_FloatPredict S_FloatPredict L_FloatPredict.
Import ListNotations.
Local Open Scope R_scope.

(** ** C186 predictions in floating point *)
Theorem C186_sound_partial : forall n q steps init w, (1 <= n)%nat -> stochasticR n q -> (init < n)%nat ->
  f_predict n (fun i j => rnd (q i j)) steps init = Some w ->
  exists r, w = init :: r /\ length r = steps /\ best_walk 0 n q init r.
Proof. exact predict_sound. Qed.
Print Assumptions C186_sound_partial.
Theorem C186_clear_partial : forall n q init r, (1 <= n)%nat -> stochasticR n q -> (init < n)%nat -> best_walk (3 * uu) n q init r ->
  f_predict n (fun i j => rnd (q i j)) (length r) init = Some (init :: r).
Proof. exact predict_clear. Qed.
Print Assumptions C186_clear_partial.
Theorem C186_none_partial : forall n q steps init, (1 <= n)%nat -> stochasticR n q -> (init < n)%nat ->
  f_predict n (fun i j => rnd (q i j)) steps init = None ->
  exists r, (length r < steps)%nat /\ best_walk 0 n q init r /\ tied (3 * uu) n (q (last r init)).
Proof. exact predict_none. Qed.
Print Assumptions C186_none_partial.
Theorem C186_tied_partial : forall n q steps init r, (1 <= n)%nat -> stochasticR n q -> (init < n)%nat ->
  (length r < steps)%nat -> best_walk 0 n q init r -> tied 0 n (q (last r init)) ->
  f_predict n (fun i j => rnd (q i j)) steps init = None.
Proof. exact predict_tied. Qed.
Print Assumptions C186_tied_partial.
Theorem C186_hidden_maximum_refuted : stochasticR 2 almost /\ best_walk 0 2 almost 0 [0%nat] /\
  f_predict 2 (fun i j => rnd (almost i j)) 1 0 = None.
Proof. exact hidden_maximum. Qed.
Print Assumptions C186_hidden_maximum_refuted.
Example C186_example : stochasticR 2 tilted /\ best_walk (3 * uu) 2 tilted 0 [1%nat; 0%nat] /\
  f_predict 2 (fun i j => rnd (tilted i j)) 2 0 = Some [0%nat; 1%nat; 0%nat] /\
  stochasticR 2 forked /\ best_walk 0 2 forked 0 [1%nat] /\ tied 0 2 (forked 1%nat) /\
  f_predict 2 (fun i j => rnd (forked i j)) 5 0 = None.
Proof.
  split; [exact tilted_stochastic|]. split; [exact tilted_walk|].
  split; [exact (predict_clear 2 tilted 0 [1%nat; 0%nat] ltac:(lia) tilted_stochastic ltac:(lia) tilted_walk)|].
  split; [exact forked_stochastic|]. split; [exact forked_walk|]. split; [exact forked_tied|].
  exact (predict_tied 2 forked 5 0 [1%nat] ltac:(lia) forked_stochastic ltac:(lia) ltac:(cbn; lia) forked_walk forked_tied).
Qed.
