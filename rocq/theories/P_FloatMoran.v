(** P_FloatMoran: the Moran model and the gambler's ruin in binary64 arithmetic (theorems only).  [rnd] is rounding to
    the nearest double; [summing sm]: any order and grouping of the sums; [uu] is 2^-53 and [tiny] 2^-1075. *)
From Coq Require Import Reals Lra Lia List ZArith.
From Flocq Require Import Core.
From Verif Require Import Fl M_Float S_Float L_Float1 L_FloatNorm L_FloatBirth M_FloatMoran S_FloatMoran L_FloatMoran.
Import ListNotations.
Local Open Scope R_scope.

(** ** C189 the Moran model and the gambler's ruin in floating point *)
Theorem C189_moran_accepted : forall sm sm' n s u v, summing sm -> summing sm' -> (2 <= n <= 500)%nat ->
  is_double s -> is_double u -> is_double v -> -1 <= s <= 1 -> 0 <= u <= 1 -> 0 <= v <= 1 ->
  f_accepts sm' (n + 1) (f_moran sm n s u v).
Proof. exact moran_accepted. Qed.
Print Assumptions C189_moran_accepted.
Theorem C189_moran_accurate : forall sm n s u v i j, summing sm -> (2 <= n <= 500)%nat ->
  is_double s -> is_double u -> is_double v -> -1 <= s <= 1 -> 0 <= u <= 1 -> 0 <= v <= 1 -> (i < n + 1)%nat -> (j < n + 1)%nat ->
  Rabs (f_moran sm n s u v i j - moranR n s u v i j) <= 1 / 10000000000.
Proof. exact moran_accurate. Qed.
Print Assumptions C189_moran_accurate.
Theorem C189_moran_impossible_moves : forall sm n s u v i j, (i < n + 1)%nat -> i <> j ->
  (i = 0%nat \/ i = n \/ (S i < j)%nat \/ (S j < i)%nat) -> f_moran sm n s u v i j = 0.
Proof. exact moran_moves. Qed.
Print Assumptions C189_moran_impossible_moves.
Theorem C189_ruin_accepted : forall sm n w, summing sm -> (3 <= n)%nat -> INR n <= 1000000000 -> is_double w -> 0 < w < 1 ->
  f_accepts sm n (f_ruin n w).
Proof. exact ruin_accepted. Qed.
Print Assumptions C189_ruin_accepted.
Theorem C189_ruin_accurate : forall n w i j, is_double w -> 0 < w < 1 ->
  Rabs (f_ruin n w i j - ruinR n w i j) <= uu * ruinR n w i j + tiny.
Proof. exact ruin_accurate. Qed.
Print Assumptions C189_ruin_accurate.
Example C189_example : summing seq_sum /\ is_double (1 / 2) /\
  f_accepts seq_sum 3 (f_moran seq_sum 2 (1 / 2) (1 / 2) (1 / 2)) /\ moranR 2 (1 / 2) (1 / 2) (1 / 2) 1 0 = 1 / 4 /\
  0 < f_moran seq_sum 2 (1 / 2) (1 / 2) (1 / 2) 1%nat 0%nat /\ f_moran seq_sum 2 (1 / 2) (1 / 2) (1 / 2) 0%nat 1%nat = 0 /\
  f_accepts seq_sum 3 (f_ruin 3 (1 / 2)) /\ ruinR 3 (1 / 2) 1 0 = 1 / 2.
Proof.
  pose proof half_double as H.
  split; [exact seq_summing|]. split; [exact H|].
  split; [apply (moran_accepted seq_sum seq_sum 2 (1 / 2) (1 / 2) (1 / 2) seq_summing seq_summing ltac:(lia) H H H ltac:(lra) ltac:(lra) ltac:(lra))|].
  destruct moran_value as [V _]. split; [exact V|]. split.
  - pose proof (moran_accurate seq_sum 2 (1 / 2) (1 / 2) (1 / 2) 1 0 seq_summing ltac:(lia) H H H ltac:(lra) ltac:(lra) ltac:(lra) ltac:(lia) ltac:(lia)) as A.
    rewrite V in A. apply Rabs_le_inv in A. lra.
  - split; [apply moran_moves; [lia|lia|left; reflexivity]|].
    split; [apply (ruin_accepted seq_sum 3 (1 / 2) seq_summing ltac:(lia) ltac:(simpl; lra) H ltac:(lra))|]. unfold ruinR; simpl; lra.
Qed.
