(** P_FloatNorm: rows divided by their sums in binary64 arithmetic (theorems only).
    [rnd] is rounding to the nearest double, [uu] is 2^-53, [tiny] is 2^-1075; [sm] and [sm'] are any two ways of
    adding up a row. *)
From Coq Require Import Reals Lra Lia List ZArith.
From Flocq Require Import Core.
From Verif Require Import Fl M_Float S_Float L_Float1 M_FloatNorm S_FloatNorm L_FloatNorm.
Import ListNotations.
Local Open Scope R_scope.

(** ** C175 weights become probabilities *)
Theorem C175_accepted : forall sm sm' n m, summing sm -> summing sm' -> (2 <= n)%nat -> INR n <= 1000000000 ->
  (forall i j, (i < n)%nat -> (j < n)%nat -> is_double (m i j) /\ 0 <= m i j) ->
  f_accepts sm' n (f_shares sm n m).
Proof. exact shares_accepted. Qed.
Print Assumptions C175_accepted.
Theorem C175_accepted_without_filling : forall sm sm' n m, summing sm -> summing sm' -> (2 <= n)%nat -> INR n <= 1000000000 ->
  (forall i j, (i < n)%nat -> (j < n)%nat -> is_double (m i j) /\ 0 <= m i j) ->
  (forall i, (i < n)%nat -> exists j, (j < n)%nat /\ 0 < m i j) ->
  f_accepts sm' n (f_normalize sm n m).
Proof. exact normalized_accepted. Qed.
Print Assumptions C175_accepted_without_filling.
Theorem C175_accurate : forall sm k m i j x, summing sm -> INR k <= 1000000000 ->
  (forall l, (l < k)%nat -> is_double (m i l) /\ 0 <= m i l) -> (j < k)%nat -> is_share k (m i) j x ->
  Rabs (f_shares sm k m i j - x) <= 4 * INR k * uu * x + tiny.
Proof. exact shares_accurate. Qed.
Print Assumptions C175_accurate.
Example C175_example : summing seq_sum /\ (forall i j, (i < 2)%nat -> (j < 2)%nat -> is_double (thin i j) /\ 0 <= thin i j) /\
  f_accepts seq_sum 2 (f_shares seq_sum 2 thin) /\ is_share 2 (thin 1%nat) 0 (1 / 2) /\
  bpow radix2 (-1073) * rsumn 2 (thin 1%nat) <= thin 1%nat 0%nat.
Proof.
  assert (D : forall i j, (i < 2)%nat -> (j < 2)%nat -> is_double (thin i j) /\ 0 <= thin i j).
  { intros i j I J. destruct (thin_ok i j I J). split; [assumption|lra]. }
  split; [exact seq_summing|]. split; [exact D|]. split; [|split].
  - apply shares_accepted; [exact seq_summing|exact seq_summing|lia|simpl; lra|exact D].
  - right. split; [exists 0%nat; split; [lia|cbn [thin]; lra]|]. unfold rsumn; cbn [seq map rsum thin]. lra.
  - unfold rsumn; cbn [seq map rsum thin]. 
    assert (bpow radix2 (-1073) <= bpow radix2 (-1)) by (apply bpow_le; lia).
    change (bpow radix2 (-1)) with (/ 2) in H. lra.
Qed.

(** ** C176 fitted chains *)
Theorem C176_fit_accepted : forall sm sm' n k s, summing sm -> summing sm' -> (2 <= n)%nat -> INR n <= 1000000000 ->
  f_accepts sm' n (f_fit sm n k s).
Proof. exact fit_accepted. Qed.
Print Assumptions C176_fit_accepted.
Theorem C176_fit_accurate : forall sm n s i j x, summing sm -> INR n <= 1000000000 -> (Z.of_nat (length s) <= 2 ^ 53)%Z ->
  (j < n)%nat -> is_share n (fun l => INR (follows i l s)) j x ->
  Rabs (f_fit sm n false s i j - x) <= 4 * INR n * uu * x + tiny.
Proof. exact fit_accurate. Qed.
Print Assumptions C176_fit_accurate.
Theorem C176_smoothed_positive : forall sm n s i j, summing sm -> INR n <= 1000000000 -> (Z.of_nat (length s) <= 2 ^ 53)%Z ->
  (j < n)%nat -> 0 < f_fit sm n true s i j.
Proof. exact smooth_positive. Qed.
Print Assumptions C176_smoothed_positive.
Theorem C176_smoothed_accurate : forall sm n s i j x, summing sm -> INR n <= 1000000000 -> (Z.of_nat (length s) <= 2 ^ 53)%Z ->
  (j < n)%nat -> is_share n (fun l => INR (follows i l s) + 1 / 1000) j x ->
  Rabs (f_fit sm n true s i j - x) <= 12 * INR n * uu * x + tiny.
Proof. exact smooth_accurate. Qed.
Print Assumptions C176_smoothed_accurate.
Theorem C176_emission_accepted : forall sm sm' r k s t, summing sm -> summing sm' -> (2 <= k)%nat -> INR k <= 1000000000 ->
  f_accepts_emission sm' r k (f_estimate_emission sm k s t).
Proof. exact estimate_accepted. Qed.
Print Assumptions C176_emission_accepted.
Theorem C176_emission_accurate : forall sm k s t i j x, summing sm -> INR k <= 1000000000 -> (Z.of_nat (length s) <= 2 ^ 53)%Z ->
  (j < k)%nat -> is_share k (fun l => INR (together i l s t)) j x ->
  Rabs (f_estimate_emission sm k s t i j - x) <= 4 * INR k * uu * x + tiny.
Proof. exact estimate_accurate. Qed.
Print Assumptions C176_emission_accurate.
Example C176_example :
  is_share 3 (fun l => INR (follows 0 l [0; 1; 0; 0; 2; 0; 1]%nat)) 1 (2 / 4) /\
  is_share 2 (fun l => INR (follows 0 l [0; 1; 0; 0]%nat) + 1 / 1000) 1 (1 / 2) /\
  is_share 3 (fun l => INR (together 0 l [0; 1; 0; 0]%nat [2; 2; 1; 1]%nat)) 1 (2 / 3) /\
  is_share 3 (fun l => INR (follows 7 l [0; 1; 0]%nat)) 1 (/ INR 3).
Proof.
  split; [|split; [|split]].
  - right. split; [exists 1%nat; split; [lia|simpl; lra]|]. unfold rsumn; simpl. lra.
  - right. split; [exists 1%nat; split; [lia|simpl; lra]|]. unfold rsumn; simpl. lra.
  - right. split; [exists 1%nat; split; [lia|simpl; lra]|]. unfold rsumn; simpl. lra.
  - left. split; [intros l L; simpl; reflexivity|reflexivity].
Qed.

(** ** C177 possible and impossible transitions *)
Theorem C177_zero_stays : forall sm k m i j, (exists l, (l < k)%nat /\ m i l <> 0) -> m i j = 0 -> f_shares sm k m i j = 0.
Proof. exact shares_zero. Qed.
Print Assumptions C177_zero_stays.
Theorem C177_positive_stays_partial : forall sm k m i j, summing sm -> INR k <= 1000000000 ->
  (forall l, (l < k)%nat -> is_double (m i l) /\ 0 <= m i l) -> (j < k)%nat ->
  bpow radix2 (-1073) * rsumn k (m i) <= m i j -> 0 < m i j -> 0 < f_shares sm k m i j.
Proof. exact shares_kept. Qed.
Print Assumptions C177_positive_stays_partial.
(** positive weights, yet a probability of zero *)
Theorem C177_positive_stays_refuted : exists m : fmat,
  (forall i j, (i < 2)%nat -> (j < 2)%nat -> is_double (m i j) /\ 0 < m i j) /\
  forall sm, summing sm -> f_shares sm 2 m 0%nat 0%nat = 0.
Proof. exact (ex_intro _ thin (conj thin_ok thin_vanishes)). Qed.
Print Assumptions C177_positive_stays_refuted.
Example C177_example : (exists l, (l < 2)%nat /\ (fun j : nat => if Nat.eqb j 0 then 0 else 3) l <> 0) /\
  bpow radix2 (-1073) * rsumn 2 (thin 1%nat) <= thin 1%nat 0%nat /\ 0 < thin 1%nat 0%nat.
Proof.
  split; [exists 1%nat; split; [lia|simpl; lra]|]. destruct C175_example as (_ & _ & _ & _ & B).
  split; [exact B|cbn [thin]; lra].
Qed.
