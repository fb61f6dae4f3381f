(** P_FloatRed: redistribution in binary64 arithmetic (theorems only).  [rnd] is rounding to the nearest double, [uu] is
    2^-53; [sm], [sm'] and [dt] are any ways of adding up a row and of multiplying a row and a column. *)
From Coq Require Import Reals Lra Lia List ZArith.
From Flocq Require Import Core.
From Verif Require Import Fl M_Float S_Float L_Float1 L_Float2 ExFloat M_FloatNorm S_FloatNorm L_FloatNorm M_FloatRed S_FloatRed L_FloatRed.
Import ListNotations.
Local Open Scope R_scope.

(** ** C183 redistribution in floating point *)
Theorem C183_typed : forall sm dt n q mu k, summing sm -> dotting dt -> (1 <= n)%nat -> INR n <= 1000000 -> stochasticR n q ->
  distributionR n mu ->
  let v := f_redistribute sm dt n (fun i j => rnd (q i j)) (fun j => rnd (mu j)) k in
  (forall j, (j < n)%nat -> is_double (v j) /\ 0 <= v j <= 1) /\ Rabs (rsumn n v - 1) <= 5 * INR n * uu /\
  dist n v (spread n q mu k) <= (24 * INR k + 2) * INR n * uu.
Proof. exact typed_redistributed. Qed.
Print Assumptions C183_typed.
Theorem C183_weights : forall sm sm' dt n m q mu k, summing sm -> summing sm' -> dotting dt -> (1 <= n)%nat -> INR n <= 1000000 ->
  (forall i j, (i < n)%nat -> (j < n)%nat -> is_double (m i j) /\ 0 <= m i j) -> stochasticR n q ->
  (forall i j, (i < n)%nat -> (j < n)%nat -> is_share n (m i) j (q i j)) -> distributionR n mu ->
  let v := f_redistribute sm dt n (f_shares sm' n m) (fun j => rnd (mu j)) k in
  (forall j, (j < n)%nat -> is_double (v j) /\ 0 <= v j) /\ Rabs (rsumn n v - 1) <= 5 * INR n * uu /\
  dist n v (spread n q mu k) <= (24 * INR k + 2) * INR n * uu.
Proof. exact weights_redistributed. Qed.
Print Assumptions C183_weights.
Theorem C183_results : forall sm dt n p v steps, 
  f_redistributions sm dt n p v steps true = [f_redistribute sm dt n p v steps] /\
  length (f_redistributions sm dt n p v steps false) = (steps + 1)%nat /\
  (forall k, (k <= steps)%nat -> nth_error (f_redistributions sm dt n p v steps false) k = Some (f_redistribute sm dt n p v k)).
Proof. exact redistributions_listed. Qed.
Print Assumptions C183_results.
Example C183_example : summing seq_sum /\ dotting seq_dot /\ stochasticR 4 pN /\ INR 4 <= 1000000 /\
  distributionR 4 (fun j => match j with 0%nat => 1 / 3 | 1%nat => 2 / 3 | _ => 0 end) /\
  dist 4 (f_redistribute seq_sum seq_dot 4 dN (fun j => rnd (match j with 0%nat => 1 / 3 | 1%nat => 2 / 3 | _ => 0 end)) 1000)
    (spread 4 pN (fun j => match j with 0%nat => 1 / 3 | 1%nat => 2 / 3 | _ => 0 end) 1000) <= (24 * INR 1000 + 2) * INR 4 * uu.
Proof.
  assert (D : distributionR 4 (fun j => match j with 0%nat => 1 / 3 | 1%nat => 2 / 3 | _ => 0 end)).
  { split; [intros [|[|j]] _; lra|]. unfold rsumn; cbn [seq map rsum]. lra. }
  split; [exact seq_summing|]. split; [exact seq_dotting|]. split; [exact pN_stochastic|]. split; [simpl; lra|]. split; [exact D|].
  apply (typed_redistributed seq_sum seq_dot 4 pN _ 1000 seq_summing seq_dotting); [lia|simpl; lra|exact pN_stochastic|exact D].
Qed.
