(** P_FloatHmm: simulated hidden models in binary64 arithmetic (theorems only).  [rnd] is rounding to the nearest
    double, [uu] is 2^-53; [q] and [e] are the probabilities as the user typed them. *)
From Coq Require Import Reals Lra Lia List ZArith.
From Flocq Require Import Core.
From Verif Require Import Fl M_Float S_Float M_FloatSim M_FloatHmm S_FloatHmm L_FloatHmm.
Import ListNotations.
Local Open Scope R_scope.

(** ** C185 simulated hidden models in floating point *)
Theorem C185_possible_partial : forall n k q e init fs fy u0 us, (1 <= n)%nat -> (1 <= k)%nat -> INR n <= 1000000 -> INR k <= 1000000 ->
  rowsR n n q -> rowsR n k e -> 0 <= u0 < 1 -> inner_draws us -> (init < n)%nat ->
  exists y r, f_hmm_simulate n k (fun i j => rnd (q i j)) (fun i j => rnd (e i j)) init fs fy u0 us = Some ((init, y) :: r) /\
    (y < k)%nat /\ 0 < e init y /\ possible_run n k q e init r /\ stops fs fy (length us) r.
Proof. exact hmm_possible. Qed.
Print Assumptions C185_possible_partial.
Theorem C185_law_partial : forall n q j, (1 <= n)%nat -> INR n <= 1000000 -> (forall j, (j < n)%nat -> 0 <= q j) -> rsumn n q = 1 ->
  (j < n)%nat ->
  exists lo hi, (forall u, 0 < u < 1 -> (f_pick n (fun j => rnd (q j)) u = j <-> lo < u <= hi)) /\
    0 <= lo <= hi /\ hi <= 1 /\ Rabs ((hi - lo) - q j) <= 17 * INR n * uu.
Proof. exact typed_pick_law. Qed.
Print Assumptions C185_law_partial.
Theorem C185_zero_draw_refuted : rowsR 2 2 swapping /\ swapping 0%nat 0%nat = 0 /\
  exists y r, f_hmm_simulate 2 2 (fun i j => rnd (swapping i j)) (fun i j => rnd (swapping i j)) 0 None None 0 [(0, 1 / 2)] =
    Some [(0%nat, y); (0%nat, r)].
Proof. exact zero_draw. Qed.
Print Assumptions C185_zero_draw_refuted.
Example C185_example : rowsR 2 2 swapping /\ inner_draws [(1 / 2, 1 / 4); (1 / 3, 1 / 2)] /\
  (exists y r, f_hmm_simulate 2 2 (fun i j => rnd (swapping i j)) (fun i j => rnd (swapping i j)) 0 (Some 1%nat) None 0 [(1 / 2, 1 / 4); (1 / 3, 1 / 2)]
     = Some ((0%nat, y) :: r) /\ 0 < swapping 0 y /\ possible_run 2 2 swapping swapping 0 r).
Proof.
  split; [exact swapping_rows|].
  assert (DU : inner_draws [(1 / 2, 1 / 4); (1 / 3, 1 / 2)]).
  { intros u v [X|[X|[]]]; injection X as <- <-; lra. }
  split; [exact DU|].
  destruct (hmm_possible 2 2 swapping swapping 0 (Some 1%nat) None 0 _ ltac:(lia) ltac:(lia) ltac:(simpl; lra) ltac:(simpl; lra)
    swapping_rows swapping_rows ltac:(lra) DU ltac:(lia)) as (y & r & A & _ & B & C & _).
  exists y, r. split; [exact A|]. split; [exact B|exact C].
Qed.
