(** P_FloatUrn: urn models and bounded chains in binary64 arithmetic (theorems only).  [rnd] is rounding to the nearest
    double; [summing sm]: any order and grouping of the sums; [squaring sq]: any squaring within one unit in the last place. *)
From Coq Require Import Reals Lra Lia List ZArith.
From Flocq Require Import Core.
From Verif Require Import Fl M_Float S_Float L_Float1 L_FloatNorm L_FloatBirth L_FloatMoran M_FloatUrn S_FloatUrn L_FloatUrn.
Import ListNotations.
Local Open Scope R_scope.

(** ** C190 urn models in floating point *)
Theorem C190_laplace_accepted : forall sm sq n, summing sm -> squaring sq -> (1 <= n)%nat -> INR (2 * n + 1) <= 1000000000 ->
  f_accepts sm (2 * n + 1) (f_laplace sq n).
Proof. exact laplace_accepted. Qed.
Print Assumptions C190_laplace_accepted.
Theorem C190_laplace_right : forall sq n i j, squaring sq -> (1 <= n)%nat -> INR (2 * n + 1) <= 1000000000 ->
  (i < 2 * n + 1)%nat -> (j < 2 * n + 1)%nat ->
  Rabs (f_laplace sq n i j - laplaceR n i j) <= 1 / 100000000000000 /\ (0 < f_laplace sq n i j <-> laplaceR n i j <> 0).
Proof. exact laplace_right. Qed.
Print Assumptions C190_laplace_right.
Theorem C190_ehrenfest_accepted : forall sm n, summing sm -> (1 <= n)%nat -> INR (2 * n + 1) <= 1000000000 ->
  f_accepts sm (2 * n + 1) (f_ehrenfest n).
Proof. exact ehrenfest_accepted. Qed.
Print Assumptions C190_ehrenfest_accepted.
Theorem C190_ehrenfest_right : forall n i j, (1 <= n)%nat -> INR (2 * n + 1) <= 1000000000 ->
  (i < 2 * n + 1)%nat -> (j < 2 * n + 1)%nat ->
  Rabs (f_ehrenfest n i j - ehrenfestR n i j) <= 1 / 100000000000000 /\ (0 < f_ehrenfest n i j <-> ehrenfestR n i j <> 0).
Proof. exact ehrenfest_right. Qed.
Print Assumptions C190_ehrenfest_right.
Example C190_example : squaring (fun x => rnd (x * x)) /\ f_accepts seq_sum 3 (f_laplace (fun x => rnd (x * x)) 1) /\
  laplaceR 1 1 0 = 1 / 4 /\ laplaceR 1 1 1 = 1 / 2 /\ 0 < f_laplace (fun x => rnd (x * x)) 1 1%nat 1%nat /\
  f_accepts seq_sum 3 (f_ehrenfest 1) /\ ehrenfestR 1 1 0 = 1 / 2 /\ 0 < f_ehrenfest 1 1%nat 0%nat.
Proof.
  split; [exact exact_squaring|].
  split; [apply (laplace_accepted seq_sum _ 1 seq_summing exact_squaring ltac:(lia) ltac:(simpl; lra))|].
  split; [unfold laplaceR, chainR; simpl; lra|].
  assert (E : laplaceR 1 1 1 = 1 / 2) by (unfold laplaceR, chainR; simpl; lra). split; [exact E|].
  split; [apply (laplace_right _ 1 1 1 exact_squaring ltac:(lia) ltac:(simpl; lra) ltac:(lia) ltac:(lia)); rewrite E; lra|].
  split; [apply (ehrenfest_accepted seq_sum 1 seq_summing ltac:(lia) ltac:(simpl; lra))|].
  assert (F : ehrenfestR 1 1 0 = 1 / 2) by (unfold ehrenfestR, chainR; simpl; lra). split; [exact F|].
  apply (ehrenfest_right 1 1 0 ltac:(lia) ltac:(simpl; lra) ltac:(lia) ltac:(lia)). rewrite F. lra.
Qed.

(** ** C191 bounded chains in floating point *)
Theorem C191_accepted : forall sm n p c, summing sm -> INR n <= 1000000000 -> f_accepts sm n p -> good_bound c ->
  f_accepts sm n (f_bounded n p c).
Proof. exact bounded_accepted. Qed.
Print Assumptions C191_accepted.
Theorem C191_rows : forall n p c i j, (2 <= n)%nat -> good_bound c -> (i < n)%nat -> (j < n)%nat ->
  ((0 < i < n - 1)%nat -> f_bounded n p c i j = p i j) /\
  (i = 0%nat -> match c with
    | Semi b => Rabs (f_bounded n p c i j - edgeR 0 1 b j) <= uu
    | Absorbing => f_bounded n p c i j = edgeR 0 1 0 j
    | Reflecting => f_bounded n p c i j = edgeR 0 1 1 j end) /\
  (i = (n - 1)%nat -> match c with
    | Semi b => Rabs (f_bounded n p c i j - edgeR (n - 1) (n - 2) (1 - b) j) <= uu
    | Absorbing => f_bounded n p c i j = edgeR (n - 1) (n - 2) 0 j
    | Reflecting => f_bounded n p c i j = edgeR (n - 1) (n - 2) 1 j end).
Proof. exact bounded_rows. Qed.
Print Assumptions C191_rows.
Example C191_example : good_bound (Semi (1 / 2)) /\ f_accepts seq_sum 3 (f_bounded 3 (f_ehrenfest 1) (Semi (1 / 2))) /\
  f_bounded 3 (f_ehrenfest 1) Reflecting 0%nat 1%nat = 1 /\ f_bounded 3 (f_ehrenfest 1) Absorbing 0%nat 0%nat = 1.
Proof.
  assert (G : good_bound (Semi (1 / 2))) by (split; [exact half_double|lra]). split; [exact G|].
  split; [apply (bounded_accepted seq_sum 3 _ _ seq_summing ltac:(simpl; lra) (ehrenfest_accepted seq_sum 1 seq_summing ltac:(lia) ltac:(simpl; lra)) G)|].
  split; reflexivity.
Qed.
