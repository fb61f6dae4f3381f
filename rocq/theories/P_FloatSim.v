(** P_FloatSim: simulation in binary64 arithmetic (theorems only).  [rnd] is rounding to the nearest double, [uu] is
    2^-53; [sm] is any way of adding up a row. *)
From Coq Require Import Reals Lra Lia List ZArith.
From Flocq Require Import Core.
From Verif Require Import Fl M_Float S_Float L_Float1 L_Float2 ExFloat M_FloatNorm S_FloatNorm L_FloatNorm M_FloatSim S_FloatSim L_FloatSim.
Import ListNotations.
Local Open Scope R_scope.

(** ** C180 simulated walks in floating point *)
Theorem C180_typed : forall n q final us cur, (1 <= n)%nat -> INR n <= 1000000 -> stochasticR n q -> draws us -> (cur < n)%nat ->
  exists r, f_simulate n (fun i j => rnd (q i j)) final cur us = Some r /\ possible_walk n q cur r /\ ends final (length us) r.
Proof. exact typed_simulated. Qed.
Print Assumptions C180_typed.
Theorem C180_typed_law : forall n q i j, (1 <= n)%nat -> INR n <= 1000000 -> stochasticR n q -> (i < n)%nat -> (j < n)%nat ->
  exists lo hi, (forall u, 0 <= u < 1 -> (f_choice n (fun j => rnd (q i j)) u = Some j <-> lo <= u < hi)) /\
    0 <= lo <= hi /\ hi <= 1 /\ Rabs ((hi - lo) - q i j) <= 17 * INR n * uu.
Proof. exact typed_law. Qed.
Print Assumptions C180_typed_law.
Theorem C180_weights : forall sm n m final us cur, summing sm -> (1 <= n)%nat -> INR n <= 1000000 ->
  (forall i j, (i < n)%nat -> (j < n)%nat -> is_double (m i j) /\ 0 <= m i j) -> draws us -> (cur < n)%nat ->
  exists r, f_simulate n (f_shares sm n m) final cur us = Some r /\ possible_walk n (f_shares sm n m) cur r /\
    ends final (length us) r.
Proof. exact shares_simulated. Qed.
Print Assumptions C180_weights.
Theorem C180_fitted : forall sm n k s final us cur, summing sm -> (1 <= n)%nat -> INR n <= 1000000 -> draws us -> (cur < n)%nat ->
  exists r, f_simulate n (f_fit sm n k s) final cur us = Some r /\ possible_walk n (f_fit sm n k s) cur r /\
    ends final (length us) r.
Proof. exact fit_simulated. Qed.
Print Assumptions C180_fitted.
Theorem C180_law : forall n w, (1 <= n)%nat -> INR n <= 1000000 -> (forall j, (j < n)%nat -> is_double (w j) /\ 0 <= w j) ->
  Rabs (rsumn n w - 1) <= / 100000000 -> forall j, (j < n)%nat -> exists lo hi,
  (forall u, 0 <= u < 1 -> (f_choice n w u = Some j <-> lo <= u < hi)) /\ 0 <= lo <= hi /\ hi <= 1 /\
  Rabs ((hi - lo) - w j / rsumn n w) <= 12 * INR n * uu.
Proof. exact choice_law. Qed.
Print Assumptions C180_law.
Example C180_example : stochasticR 4 pN /\ INR 4 <= 1000000 /\ draws [0; 1 / 2; 99 / 100] /\ summing seq_sum /\
  exists r, f_simulate 4 (fun i j => rnd (pN i j)) None 0 [0; 1 / 2; 99 / 100] = Some r /\ possible_walk 4 pN 0 r /\ length r = 3%nat.
Proof.
  assert (D : draws [0; 1 / 2; 99 / 100]) by (intros u [<-|[<-|[<-|[]]]]; lra).
  split; [exact pN_stochastic|]. split; [simpl; lra|]. split; [exact D|]. split; [exact seq_summing|].
  destruct (typed_simulated 4 pN None [0; 1 / 2; 99 / 100] 0) as (r & E & W & _ & L);
    [lia|simpl; lra|exact pN_stochastic|exact D|lia|].
  exists r. split; [exact E|]. split; [exact W|exact L].
Qed.
