(** P_RandDist: random_distribution (theorems only).  [xs] and [xs'] are any two ways of adding up a row in doubles;
    [value_of] is the documented reading of nan, negative and infinite draws. *)
From Coq Require Import Reals Lra Lia List ZArith.
From Flocq Require Import Core.
From Verif Require Import Fl M_Float S_Float S_FloatNorm M_RandDist S_RandDist L_RandDist.
Import ListNotations.
Local Open Scope R_scope.

(** ** C178 draws of any distribution become a chain *)
Theorem C178_accepted_partial : forall xs xs' n d, xsumming xs -> xsumming xs' -> (2 <= n)%nat -> INR n <= 1000000000 ->
  (forall i j, (i < n)%nat -> (j < n)%nat -> a_double (d i j)) ->
  (forall i, (i < n)%nat -> rsumn n (fun j => value_of (d i j)) <= bpow radix2 1023 \/
     exists j, (j < n)%nat /\ d i j = XPos /\
       rsumn n (fun l => if Nat.eqb l j then 0 else value_of (d i l)) <= bpow radix2 969) ->
  x_accepts xs' n (x_random_distribution xs n d).
Proof. exact one_infinite_accepted. Qed.
Print Assumptions C178_accepted_partial.
Theorem C178_accurate_partial : forall xs n d i j x, xsumming xs -> INR n <= 1000000000 ->
  (forall l, (l < n)%nat -> a_double (d i l)) -> rsumn n (fun l => value_of (d i l)) <= bpow radix2 1023 ->
  (j < n)%nat -> is_share n (fun l => value_of (d i l)) j x ->
  exists y, x_random_distribution xs n d i j = XFin y /\ Rabs (y - x) <= 4 * INR n * uu * x + tiny.
Proof. exact random_distribution_accurate. Qed.
Print Assumptions C178_accurate_partial.
(** rejected exactly when the total of a row, computed in doubles, is infinite *)
Theorem C178_overflow_partial : forall xs xs' n d, xsumming xs -> xsumming xs' -> (2 <= n)%nat -> INR n <= 1000000000 ->
  (forall i j, (i < n)%nat -> (j < n)%nat -> a_double (d i j)) ->
  (x_accepts xs' n (x_random_distribution xs n d) <->
   forall i, (i < n)%nat -> xs (xrow n (x_filled n d i)) <> XPos).
Proof. exact random_distribution_iff. Qed.
Print Assumptions C178_overflow_partial.
(** two infinite draws in one row *)
Theorem C178_infinite_refuted : exists d : xmat, (forall i j, (i < 2)%nat -> (j < 2)%nat -> a_double (d i j)) /\
  forall xs xs', xsumming xs -> xsumming xs' -> ~ x_accepts xs' 2 (x_random_distribution xs 2 d).
Proof. exact (ex_intro _ spread (conj spread_doubles spread_rejected)). Qed.
Print Assumptions C178_infinite_refuted.
Example C178_example : xsumming xseq_sum /\
  (forall j, (j < 2)%nat -> a_double (spread 1%nat j)) /\ rsumn 2 (fun l => value_of (spread 1%nat l)) <= bpow radix2 1023 /\
  is_share 2 (fun l => value_of (spread 1%nat l)) 0 1 /\ is_share 2 (fun l => value_of (spread 1%nat l)) 1 0.
Proof.
  assert (V0 : value_of (spread 1%nat 0%nat) = 1) by (cbn [spread value_of]; destruct (Rlt_dec 0 1); lra).
  assert (V1 : value_of (spread 1%nat 1%nat) = 0) by reflexivity.
  split; [exact xseq_summing|]. split; [intros j J; apply spread_doubles; [lia|exact J]|].
  assert (T : rsumn 2 (fun l => value_of (spread 1%nat l)) = 1) by (unfold rsumn; cbn [seq map rsum]; rewrite V0, V1; lra).
  rewrite T. split; [apply (bpow_le radix2 0 1023); lia|].
  assert (P : exists l, (l < 2)%nat /\ 0 < value_of (spread 1%nat l)) by (exists 0%nat; split; [lia|lra]).
  split; right; (split; [exact P|]); rewrite T; lra.
Qed.
