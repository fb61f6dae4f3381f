(** P_FloatDir: chains drawn from a Dirichlet process in binary64 arithmetic (theorems only).  [summing sm]: any order and
    grouping of the sums; [drawn n draws]: doubles between 0 and 1, not all zero in any row. *)
From Coq Require Import Reals Lra Lia List ZArith.
From Flocq Require Import Core.
From Verif Require Import Fl M_Float S_Float L_Float1 L_FloatMoran M_FloatDir S_FloatDir L_FloatDir.
Import ListNotations.
Local Open Scope R_scope.

(** ** C193 Dirichlet processes in floating point *)
Theorem C193_accepted : forall sm sm' n draws shift diag, summing sm -> summing sm' -> (2 <= n)%nat -> INR n <= 1000000000 -> drawn n draws ->
  (forall d, diag = Some d -> forall i, (i < n)%nat -> is_double (d i) /\ 0 <= d i <= 1) ->
  f_accepts sm' n (f_dirichlet sm n draws shift diag).
Proof. exact dirichlet_accepted. Qed.
Print Assumptions C193_accepted.
Theorem C193_accurate : forall sm n draws (shift : bool) i j, summing sm -> (2 <= n)%nat -> INR n <= 1000000000 -> drawn n draws ->
  (i < n)%nat -> (j < n)%nat ->
  let g := draws i in let k := if shift then (n - 1 - j)%nat else j in
  Rabs (f_dirichlet sm n draws shift None i j - pieceR g k / brokenR n g) <= 3 / 1000000000000000 * (INR n * INR n) / brokenR n g.
Proof. exact dirichlet_accurate. Qed.
Print Assumptions C193_accurate.
Theorem C193_biased : forall sm n draws (shift : bool) d i j, summing sm -> (2 <= n)%nat -> INR n <= 1000000000 -> drawn n draws ->
  (forall i, (i < n)%nat -> is_double (d i) /\ 0 <= d i <= 1) -> (i < n)%nat -> (j < n)%nat ->
  let q := f_dirichlet sm n draws shift None in
  Rabs (f_dirichlet sm n draws shift (Some d) i j - (q i j + (if Nat.eqb i j then d i else 0)) / (1 + d i)) <= 2 / 1000000000000000 * INR n.
Proof. exact dirichlet_biased. Qed.
Print Assumptions C193_biased.
Theorem C193_only_drawn : forall sm n draws (shift : bool) i j, (i < n)%nat -> (j < n)%nat ->
  draws i (if shift then (n - 1 - j)%nat else j) = 0 -> f_dirichlet sm n draws shift None i j = 0.
Proof. exact dirichlet_only_drawn. Qed.
Print Assumptions C193_only_drawn.
Theorem C193_undrawn_row_sums_to_zero : forall sm n draws i, (i < n)%nat -> (forall j, (j < n)%nat -> draws i j = 0) -> summing sm ->
  sm (frow n (f_gem_rows n draws i)) = 0.
Proof. exact dirichlet_undrawn. Qed.
Print Assumptions C193_undrawn_row_sums_to_zero.
Example C193_example : let g : fmat := fun _ _ => 1 / 2 in
  drawn 2 g /\ pieceR (g 0%nat) 1 = 1 / 4 /\ brokenR 2 (g 0%nat) = 3 / 4 /\ f_accepts seq_sum 2 (f_dirichlet seq_sum 2 g true (Some (fun _ => 1 / 2))) /\
  0 < f_dirichlet seq_sum 2 g false None 0%nat 1%nat.
Proof.
  intros g. assert (D : drawn 2 g).
  { split; [intros i j _ _; split; [exact half_double|unfold g; lra]|]. intros i _. exists 0%nat. split; [lia|unfold g; lra]. }
  split; [exact D|].
  assert (V : pieceR (g 0%nat) 1 = 1 / 4) by (unfold pieceR, g; simpl; lra). split; [exact V|].
  assert (W : brokenR 2 (g 0%nat) = 3 / 4) by (unfold brokenR, rsumn, pieceR, g; simpl; lra). split; [exact W|]. split.
  - apply (dirichlet_accepted seq_sum seq_sum 2 g true _ seq_summing seq_summing ltac:(lia) ltac:(simpl; lra) D).
    intros d H i _. injection H as <-. split; [exact half_double|lra].
  - pose proof (dirichlet_accurate seq_sum 2 g false 0 1 seq_summing ltac:(lia) ltac:(simpl; lra) D ltac:(lia) ltac:(lia)) as A. cbv beta iota zeta in A.
    rewrite V, W in A. apply Rabs_le_inv in A. change (INR 2) with (1 + 1) in A. lra.
Qed.
