(** P_FloatBirth: birth and death chains in binary64 arithmetic (theorems only).  [rnd] is rounding to the nearest double;
    [summing sm]: any order and grouping of the sums; [a] are the creation and [b] the annihilation probabilities. *)
From Coq Require Import Reals Lra Lia List ZArith.
From Flocq Require Import Core.
From Verif Require Import Fl M_Float S_Float L_Float1 M_FloatBirth S_FloatBirth L_FloatBirth.
Import ListNotations.
Local Open Scope R_scope.

(** ** C188 birth and death chains in floating point *)
Theorem C188_accepted_partial : forall sm sm' n a b, summing sm -> summing sm' -> (2 <= n)%nat -> INR n <= 1000000000 -> f_bd_valid n a b ->
  f_accepts sm' n (f_birth_death sm n a b).
Proof. exact birth_death_accepted. Qed.
Print Assumptions C188_accepted_partial.
Theorem C188_near_partial : forall sm n a b i j, summing sm -> (2 <= n)%nat -> INR n <= 1000000 -> f_bd_valid n a b -> (i < n)%nat -> (j < n)%nat ->
  Rabs (f_birth_death sm n a b i j - birth_deathR a b i j) <= 1 / 10000000.
Proof. exact birth_death_near. Qed.
Print Assumptions C188_near_partial.
Theorem C188_moves_partial : forall sm n a b i j, summing sm -> (2 <= n)%nat -> INR n <= 1000000 -> f_bd_valid n a b -> (i < n)%nat -> (j < n)%nat ->
  (birth_deathR a b i j = 0 -> f_birth_death sm n a b i j = 0) /\ (2 / 100000000 <= birth_deathR a b i j -> 0 < f_birth_death sm n a b i j).
Proof. exact birth_death_moves. Qed.
Print Assumptions C188_moves_partial.
Theorem C188_lost_birth_refuted : forall sm, summing sm ->
  f_bd_valid 2 rare deaths /\ 0 < birth_deathR rare deaths 0 1 /\ f_birth_death sm 2 rare deaths 0%nat 1%nat = 0.
Proof. exact lost_birth. Qed.
Print Assumptions C188_lost_birth_refuted.
Example C188_example : summing seq_sum /\ f_bd_valid 2 rare deaths /\ f_accepts seq_sum 2 (f_birth_death seq_sum 2 rare deaths) /\
  birth_deathR rare deaths 1 0 = 1 / 2 /\ 0 < f_birth_death seq_sum 2 rare deaths 1%nat 0%nat.
Proof.
  split; [exact seq_summing|]. split; [exact rare_valid|].
  split; [apply (birth_death_accepted seq_sum seq_sum 2 rare deaths seq_summing seq_summing ltac:(lia) ltac:(simpl; lra) rare_valid)|].
  assert (E : birth_deathR rare deaths 1 0 = 1 / 2) by reflexivity. split; [exact E|].
  apply (birth_death_moves seq_sum 2 rare deaths 1 0 seq_summing ltac:(lia) ltac:(simpl; lra) rare_valid ltac:(lia) ltac:(lia)). rewrite E. lra.
Qed.
