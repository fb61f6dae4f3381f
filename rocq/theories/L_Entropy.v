(** L_Entropy: the entropy rate. *)
From Verif Require Export M_Entropy S_Entropy L_Props L_Simulation.
From Coq Require Import Reals Qreals Lra.
Close Scope Q_scope. Close Scope R_scope.
Open Scope nat_scope.
Open Scope res_scope.

(** ** Finite sums of reals *)
Lemma rsum_lsum n f : rsum n f = lsumR (map f (seq 0 n)).
Proof. unfold rsum, lsumR. induction (seq 0 n) as [|a l IH]; [reflexivity|]. cbn. rewrite IH. reflexivity. Qed.
Section LS.
Context {A : Type}.
Implicit Types (l : list A) (f g : A -> R).
Lemma ls_ext l f g : (forall x, In x l -> f x = g x) -> lsumR (map f l) = lsumR (map g l).
Proof. intros H. f_equal. apply map_ext_in. exact H. Qed.
Lemma ls_plus l f g : lsumR (map (fun x => f x + g x)%R l) = (lsumR (map f l) + lsumR (map g l))%R.
Proof. induction l as [|a l IH]; cbn; [lra|]. unfold lsumR in IH. rewrite IH. lra. Qed.
Lemma ls_mul l c f : lsumR (map (fun x => c * f x)%R l) = (c * lsumR (map f l))%R.
Proof. induction l as [|a l IH]; cbn; [lra|]. unfold lsumR in IH. rewrite IH. lra. Qed.
Lemma ls_mul_r l c f : lsumR (map (fun x => f x * c)%R l) = (lsumR (map f l) * c)%R.
Proof. rewrite (ls_ext l _ (fun x => c * f x)%R) by (intros; lra). rewrite ls_mul. lra. Qed.
Lemma ls_le l f g : (forall x, In x l -> (f x <= g x)%R) -> (lsumR (map f l) <= lsumR (map g l))%R.
Proof.
  induction l as [|a l IH]; intros H; cbn; [lra|]. pose proof (H a (or_introl eq_refl)). specialize (IH (fun x Hx => H x (or_intror Hx))).
  unfold lsumR in IH. lra.
Qed.
Lemma ls_0 l f : (forall x, In x l -> f x = 0%R) -> lsumR (map f l) = 0%R.
Proof. induction l as [|a l IH]; intros H; cbn; [reflexivity|]. rewrite (H a (or_introl eq_refl)). unfold lsumR in IH. rewrite IH; [lra|]. intros; apply H; right; assumption. Qed.
Lemma ls_nonneg l f : (forall x, In x l -> (0 <= f x)%R) -> (0 <= lsumR (map f l))%R.
Proof. intros H. rewrite <- (ls_0 l (fun _ => 0%R)) by reflexivity. apply ls_le. exact H. Qed.
Lemma ls_opp l f : lsumR (map (fun x => - f x)%R l) = (- lsumR (map f l))%R.
Proof. rewrite (ls_ext l _ (fun x => -1 * f x)%R) by (intros; lra). rewrite ls_mul. lra. Qed.
Lemma ls_app l l' f : lsumR (map f (l ++ l')) = (lsumR (map f l) + lsumR (map f l'))%R.
Proof. unfold lsumR. induction l as [|a l IH]; cbn [app map fold_right]; [lra|]. rewrite IH. lra. Qed.
Lemma ls_term l f x : (forall y, In y l -> (0 <= f y)%R) -> In x l -> (f x <= lsumR (map f l))%R.
Proof.
  induction l as [|a l IH]; intros H Hx; [destruct Hx|]. cbn. pose proof (H a (or_introl eq_refl)) as Ha.
  pose proof (ls_nonneg l f (fun y Hy => H y (or_intror Hy))) as Hl. destruct Hx as [->|Hx]; [unfold lsumR in Hl; lra|].
  specialize (IH (fun y Hy => H y (or_intror Hy)) Hx). unfold lsumR in IH. lra.
Qed.
Lemma ls_zero_inv l f x : (forall y, In y l -> (0 <= f y)%R) -> lsumR (map f l) = 0%R -> In x l -> f x = 0%R.
Proof. intros H E Hx. pose proof (ls_term l f x H Hx). pose proof (H x Hx). lra. Qed.
End LS.
Lemma ls_swap {A B} (l : list A) (l' : list B) (f : A -> B -> R) :
  lsumR (map (fun x => lsumR (map (f x) l')) l) = lsumR (map (fun y => lsumR (map (fun x => f x y) l)) l').
Proof.
  induction l as [|a l IH]; cbn; [symmetry; apply ls_0; reflexivity|]. unfold lsumR in *. rewrite IH.
  change (lsumR (map (f a) l') + lsumR (map (fun y => lsumR (map (fun x => f x y) l)) l') = lsumR (map (fun y => f a y + lsumR (map (fun x => f x y) l)) l'))%R.
  rewrite ls_plus. reflexivity.
Qed.
Lemma ls_words n k (f : list nat -> R) : lsumR (map f (words n (S k))) = lsumR (map (fun x => lsumR (map (fun w => f (x :: w)) (words n k))) (seq 0 n)).
Proof.
  cbn [words]. induction (seq 0 n) as [|a l IH]; [reflexivity|]. cbn [flat_map map]. rewrite ls_app, IH. cbn. f_equal. rewrite map_map. reflexivity.
Qed.
Lemma Qc2R_lsum l : Qc2R (lsum l) = lsumR (map Qc2R l).
Proof. unfold lsum, lsumR. induction l as [|a l IH]; cbn [map fold_right]; [apply Qc2R_0|]. rewrite Qc2R_plus, IH. reflexivity. Qed.
Lemma Qc2R_sumn n f : Qc2R (sumn n f) = lsumR (map (fun i => Qc2R (f i)) (seq 0 n)).
Proof. rewrite <- lsum_tab, Qc2R_lsum. unfold tab. rewrite map_map. reflexivity. Qed.
Lemma Qc2R_nonneg a : (0 <= a)%Qc -> (0 <= Qc2R a)%R.
Proof. intros H. rewrite <- Qc2R_0. apply Qc2R_le. exact H. Qed.

(** ** x ln x *)
Lemma xlogx_0 : xlogx 0q = 0%R. Proof. unfold xlogx. reflexivity. Qed.
Lemma xlogx_pos x : (0 < x)%Qc -> xlogx x = (Qc2R x * ln (Qc2R x))%R.
Proof. intros H. unfold xlogx. destruct (Qceqb_spec x 0); [subst; exfalso; exact (Qclt_irr _ H)|reflexivity]. Qed.
Lemma xlogx_mul a b : (0 <= a)%Qc -> (0 <= b)%Qc -> xlogx (a * b)%Qc = (Qc2R b * xlogx a + Qc2R a * xlogx b)%R.
Proof.
  intros Ha Hb. destruct (pos_or_0 a Ha) as [Pa| ->].
  - destruct (pos_or_0 b Hb) as [Pb| ->].
    + rewrite !xlogx_pos by (assumption || apply Qc_mul_pos; assumption). rewrite Qc2R_mul, ln_mult by (apply Qc2R_pos; assumption). lra.
    + replace (a * 0)%Qc with 0q by ring. rewrite xlogx_0, Qc2R_0. lra.
  - replace (0 * b)%Qc with 0q by ring. rewrite xlogx_0, Qc2R_0. lra.
Qed.
Lemma ln_le_sub x : (0 < x)%R -> (ln x <= x - 1)%R.
Proof. intros H. pose proof (exp_ineq1_le (ln x)) as E. rewrite exp_ln in E by exact H. lra. Qed.
Lemma xlogx_nonpos x : (0 <= x)%Qc -> (x <= 1)%Qc -> (xlogx x <= 0)%R.
Proof.
  intros H0 H1. destruct (pos_or_0 x H0) as [Px| ->]; [|rewrite xlogx_0; lra]. rewrite xlogx_pos by exact Px.
  pose proof (Qc2R_pos x Px) as P1. apply Qc2R_le in H1. rewrite Qc2R_1 in H1. pose proof (ln_le_sub _ P1) as L. nra.
Qed.

Section CHAIN.
Variables (n : nat) (P : mat) (pi : vec).
Hypothesis St : stochastic n P.
Hypothesis Dpi : distribution n pi.
Hypothesis Spi : stationary n P pi.
Let Pos := proj1 (proj2 St).
Definition erate : R := (- lsumR (map (fun i => Qc2R (vget pi i) * lsumR (map (fun j => xlogx (mget P i j)) (seq 0 n))) (seq 0 n)))%R.
Lemma in_seq0 i : In i (seq 0 n) <-> i < n.
Proof. rewrite in_seq. lia. Qed.
Lemma path_total k : forall i, i < n -> lsum (map (path_prob P i) (words n k)) = 1q.
Proof.
  intros i Hi. pose proof (kstep_sum n P k St i Hi) as K. rewrite <- K.
  unfold kstep, prob_paths. rewrite <- (lsum_map_sumn (fun w j => if Nat.eqb (path_end i w) j then path_prob P i w else 0q)).
  apply lsum_map_ext. intros w Hw. symmetry.
  assert (He : path_end i w < n).
  { unfold path_end. destruct w as [|a w]; [exact Hi|]. apply (words_lt n k (a :: w)); [exact Hw|]. rewrite (app_removelast_last i) at 2 by discriminate. apply in_or_app. right. left. reflexivity. }
  rewrite (sumn_single n _ (path_end i w) He); [rewrite Nat.eqb_refl; reflexivity|]. intros j Hj Ne.
  destruct (Nat.eqb_spec (path_end i w) j); [congruence|reflexivity].
Qed.
Lemma path_nonneg i w : i < n -> (forall x, In x w -> x < n) -> (0 <= path_prob P i w)%Qc.
Proof. intros Hi Hw. apply (pp_nonneg n P (i :: w) Pos). intros x [<-|Hx]; [exact Hi|apply Hw; exact Hx]. Qed.
Definition Lk (k i : nat) : R := lsumR (map (fun w => xlogx (path_prob P i w)) (words n k)).
Lemma Lk_S k i : i < n -> Lk (S k) i = (lsumR (map (fun x => xlogx (mget P i x)) (seq 0 n)) + lsumR (map (fun x => Qc2R (mget P i x) * Lk k x)%R (seq 0 n)))%R.
Proof.
  intros Hi. unfold Lk at 1. rewrite ls_words, <- ls_plus. apply ls_ext. intros x Hx. apply in_seq0 in Hx. cbn [path_prob].
  rewrite (ls_ext _ _ (fun w => xlogx (mget P i x) * Qc2R (path_prob P x w) + Qc2R (mget P i x) * xlogx (path_prob P x w))%R).
  - rewrite ls_plus, !ls_mul. f_equal.
    assert (T : lsumR (map (fun w => Qc2R (path_prob P x w)) (words n k)) = 1%R).
    { rewrite <- (map_map (path_prob P x) Qc2R), <- Qc2R_lsum, path_total by exact Hx. apply Qc2R_1. }
    rewrite T. lra.
  - intros w Hw. rewrite xlogx_mul; [lra|apply Pos; assumption|]. apply path_nonneg; [exact Hx|]. intros y Hy. eapply words_lt; eassumption.
Qed.
Definition Lam (k : nat) : R := lsumR (map (fun i => Qc2R (vget pi i) * Lk k i)%R (seq 0 n)).
Lemma stationary_avg (f : nat -> R) :
  lsumR (map (fun i => Qc2R (vget pi i) * lsumR (map (fun j => Qc2R (mget P i j) * f j) (seq 0 n)))%R (seq 0 n)) = lsumR (map (fun j => Qc2R (vget pi j) * f j)%R (seq 0 n)).
Proof.
  rewrite (ls_ext _ _ (fun i => lsumR (map (fun j => Qc2R (vget pi i) * Qc2R (mget P i j) * f j)%R (seq 0 n)))).
  - rewrite ls_swap. apply ls_ext. intros j Hj. apply in_seq0 in Hj. rewrite ls_mul_r. f_equal.
    destruct Spi as [_ Sj]. rewrite <- (Sj j Hj), Qc2R_sumn. apply ls_ext. intros i _. rewrite Qc2R_mul. reflexivity.
  - intros i _. rewrite <- ls_mul. apply ls_ext. intros; lra.
Qed.
Lemma Lam_S k : Lam (S k) = (Lam k - erate)%R.
Proof.
  unfold Lam. rewrite (ls_ext _ _ (fun i => Qc2R (vget pi i) * lsumR (map (fun x => xlogx (mget P i x)) (seq 0 n)) + Qc2R (vget pi i) * lsumR (map (fun x => Qc2R (mget P i x) * Lk k x) (seq 0 n)))%R).
  - rewrite ls_plus, stationary_avg. unfold erate. lra.
  - intros i Hi. apply in_seq0 in Hi. rewrite Lk_S by exact Hi. lra.
Qed.
Lemma block_S k : block_entropy n P pi (S k) = (- lsumR (map (fun i => xlogx (vget pi i)) (seq 0 n)) - Lam k)%R.
Proof.
  unfold block_entropy. rewrite ls_words. unfold Lam.
  rewrite (ls_ext _ (fun x => lsumR (map (fun w => xlogx (seq_prob P pi (x :: w))) (words n k))) (fun i => xlogx (vget pi i) + Qc2R (vget pi i) * Lk k i)%R).
  - rewrite ls_plus. lra.
  - intros i Hi. apply in_seq0 in Hi. cbn [seq_prob].
    rewrite (ls_ext _ _ (fun w => xlogx (vget pi i) * Qc2R (path_prob P i w) + Qc2R (vget pi i) * xlogx (path_prob P i w))%R).
    + rewrite ls_plus, !ls_mul. unfold Lk. f_equal. rewrite <- (map_map (path_prob P i) Qc2R), <- Qc2R_lsum, path_total by exact Hi. rewrite Qc2R_1. lra.
    + intros w Hw. rewrite xlogx_mul; [lra|apply Dpi; exact Hi|]. apply path_nonneg; [exact Hi|]. intros y Hy. eapply words_lt; eassumption.
Qed.
Lemma erate_step : entropy_per_step n P pi erate.
Proof. intros k. rewrite !block_S, Lam_S. lra. Qed.
Lemma p_le_1 i j : i < n -> j < n -> (mget P i j <= 1)%Qc.
Proof. intros Hi Hj. rewrite <- (proj2 (proj2 St) i Hi). apply (sumn_term_le n (fun j => mget P i j) j Hj). intros k Hk. apply Pos; assumption. Qed.
Lemma erate_nonneg : (0 <= erate)%R.
Proof.
  unfold erate. rewrite <- ls_opp. apply ls_nonneg. intros i Hi. apply in_seq0 in Hi.
  assert (N : (lsumR (map (fun j => xlogx (mget P i j)) (seq 0 n)) <= 0)%R).
  { rewrite <- (ls_0 (seq 0 n) (fun _ => 0%R)) by reflexivity. apply ls_le. intros j Hj. apply in_seq0 in Hj. apply xlogx_nonpos; [apply Pos; assumption|apply p_le_1; assumption]. }
  pose proof (Qc2R_nonneg _ (proj1 (proj2 Dpi) i Hi)). nra.
Qed.
Lemma erate_zero : erate = 0%R <-> deterministic n P pi.
Proof.
  set (r := fun i : nat => lsumR (map (fun j => xlogx (mget P i j)) (seq 0 n))).
  assert (N : forall i j, i < n -> j < n -> (xlogx (mget P i j) <= 0)%R) by (intros i j Hi Hj; apply xlogx_nonpos; [apply Pos; assumption|apply p_le_1; assumption]).
  assert (Nr : forall i, i < n -> (r i <= 0)%R).
  { intros i Hi. unfold r. rewrite <- (ls_0 (seq 0 n) (fun _ => 0%R)) by reflexivity. apply ls_le. intros j Hj. apply in_seq0 in Hj. apply N; assumption. }
  split.
  - intros E i j Hi Hj Pi. unfold erate in E. rewrite <- ls_opp in E.
    assert (Z := fun H => ls_zero_inv (seq 0 n) (fun i => - (Qc2R (vget pi i) * r i))%R i H E (proj2 (in_seq0 i) Hi)).
    assert (Z1 : (Qc2R (vget pi i) * r i = 0)%R).
    { rewrite <- (Ropp_involutive (Qc2R (vget pi i) * r i)), Z; [lra|]. intros y Hy. apply in_seq0 in Hy. pose proof (Qc2R_nonneg _ (proj1 (proj2 Dpi) y Hy)). specialize (Nr y Hy). nra. }
    assert (Ri : r i = 0%R) by (pose proof (Qc2R_pos _ Pi); destruct (Rmult_integral _ _ Z1); lra).
    assert (Xj : xlogx (mget P i j) = 0%R).
    { rewrite <- (Ropp_involutive (xlogx _)). rewrite (ls_zero_inv (seq 0 n) (fun j => - xlogx (mget P i j))%R j); [lra| | |apply in_seq0; exact Hj].
      - intros y Hy. apply in_seq0 in Hy. specialize (N i y Hi Hy). lra.
      - rewrite ls_opp. fold (r i). lra. }
    destruct (pos_or_0 _ (Pos i j Hi Hj)) as [Pp|E0]; [|left; exact E0]. right. rewrite xlogx_pos in Xj by exact Pp.
    pose proof (Qc2R_pos _ Pp) as Pr. destruct (Rmult_integral _ _ Xj) as [C|C]; [lra|].
    apply Qc2R_inj. rewrite Qc2R_1. rewrite <- (exp_ln _ Pr), C. apply exp_0.
  - intros D. unfold erate. rewrite ls_0; [lra|]. intros i Hi. apply in_seq0 in Hi. destruct (pos_or_0 _ (proj1 (proj2 Dpi) i Hi)) as [Pi|E0].
    + rewrite ls_0; [lra|]. intros j Hj. apply in_seq0 in Hj. destruct (D i j Hi Hj Pi) as [E|E]; rewrite E.
      * apply xlogx_0.
      * rewrite xlogx_pos by (apply Qcltb_lt; reflexivity). rewrite Qc2R_1, ln_1. lra.
    + rewrite E0, Qc2R_0. lra.
Qed.
(** Gibbs' inequality. *)
Lemma erate_gibbs (g : nat -> nat -> R) : (forall i j, i < n -> j < n -> (0 < g i j)%R) ->
  (forall i, i < n -> (lsumR (map (fun j => if Qcltb 0 (mget P i j) then g i j else 0%R) (seq 0 n)) <= 1)%R) ->
  (erate <= - lsumR (map (fun i => Qc2R (vget pi i) * lsumR (map (fun j => Qc2R (mget P i j) * ln (g i j)) (seq 0 n))) (seq 0 n)))%R.
Proof.
  intros Gp G1. unfold erate. apply Ropp_le_contravar. apply ls_le. intros i Hi. apply in_seq0 in Hi.
  apply Rmult_le_compat_l; [apply Qc2R_nonneg, Dpi; exact Hi|].
  assert (L : (lsumR (map (fun j => Qc2R (mget P i j) * ln (g i j)) (seq 0 n)) + - lsumR (map (fun j => xlogx (mget P i j)) (seq 0 n)) <=
    lsumR (map (fun j => if Qcltb 0 (mget P i j) then g i j else 0) (seq 0 n)) + - lsumR (map (fun j => Qc2R (mget P i j)) (seq 0 n)))%R).
  { rewrite <- !ls_opp, <- !ls_plus. apply ls_le. intros j Hj. apply in_seq0 in Hj.
    destruct (pos_or_0 _ (Pos i j Hi Hj)) as [Pp|E0].
    - rewrite (proj2 (Qcltb_lt 0 (mget P i j)) Pp), xlogx_pos by exact Pp. pose proof (Qc2R_pos _ Pp) as Pr. specialize (Gp i j Hi Hj).
      pose proof (ln_le_sub (g i j / Qc2R (mget P i j)) ltac:(apply Rdiv_lt_0_compat; assumption)) as B.
      unfold Rdiv in B. rewrite ln_mult, ln_Rinv in B by (try assumption; apply Rinv_0_lt_compat; exact Pr).
      apply (Rmult_le_compat_l _ _ _ (Rlt_le _ _ Pr)) in B.
      replace (Qc2R (mget P i j) * (g i j * / Qc2R (mget P i j) - 1))%R with (g i j - Qc2R (mget P i j))%R in B by (field; lra). lra.
    - rewrite E0. change (Qcltb 0 0q) with false. cbv iota. rewrite xlogx_0, Qc2R_0. lra. }
  specialize (G1 i Hi). rewrite <- (Qc2R_sumn n (fun j => mget P i j)), (proj2 (proj2 St) i Hi) in L. rewrite Qc2R_1 in L. lra.
Qed.
Lemma pi_sum_R : lsumR (map (fun i => Qc2R (vget pi i)) (seq 0 n)) = 1%R.
Proof. rewrite <- (Qc2R_sumn n (vget pi)), (proj2 (proj2 Dpi)). apply Qc2R_1. Qed.
Lemma erate_ln_n : 0 < n -> (erate <= ln (INR n))%R.
Proof.
  intros Hn. assert (Np : (0 < INR n)%R) by (apply lt_0_INR; exact Hn).
  eapply Rle_trans; [apply (erate_gibbs (fun _ _ => / INR n)%R)|].
  - intros. apply Rinv_0_lt_compat. exact Np.
  - intros i Hi. eapply Rle_trans; [apply (ls_le _ _ (fun _ => / INR n)%R)|].
    + intros j _. destruct (Qcltb _ _); [lra|]. apply Rlt_le, Rinv_0_lt_compat, Np.
    + rewrite (ls_ext _ _ (fun _ => / INR n * 1)%R) by (intros; lra). rewrite ls_mul.
      assert (C : lsumR (map (fun _ : nat => 1%R) (seq 0 n)) = INR n).
      { clear. rewrite <- (seq_length n 0) at 2. generalize (seq 0 n). intros l. induction l as [|a l IH]; [reflexivity|]. cbn [map length]. rewrite S_INR, <- IH. unfold lsumR. cbn [fold_right]. lra. }
      rewrite C, Rinv_l by lra. lra.
  - rewrite (ls_ext _ _ (fun i => Qc2R (vget pi i) * - ln (INR n))%R).
    + rewrite ls_mul_r, pi_sum_R. lra.
    + intros i Hi. apply in_seq0 in Hi. f_equal. rewrite ls_mul_r, <- (Qc2R_sumn n (fun j => mget P i j)), (proj2 (proj2 St) i Hi).
      rewrite Qc2R_1, ln_Rinv by exact Np. lra.
Qed.
Lemma erate_topological lam v : adjacency_eigen n P lam v -> (erate <= ln lam)%R.
Proof.
  intros (Lp & Vp & Ev).
  eapply Rle_trans; [apply (erate_gibbs (fun i j => / (lam * v i) * v j)%R)|].
  - intros i j Hi Hj. apply Rmult_lt_0_compat; [apply Rinv_0_lt_compat, Rmult_lt_0_compat|]; auto.
  - intros i Hi. rewrite (ls_ext _ _ (fun j => / (lam * v i) * (if Qcltb 0 (mget P i j) then v j else 0))%R) by (intros j _; destruct (Qcltb _ _); lra).
    rewrite ls_mul, (Ev i Hi). rewrite Rinv_l; [lra|]. specialize (Vp i Hi). apply Rgt_not_eq, Rmult_lt_0_compat; assumption.
  - apply Req_le. transitivity (- lsumR (map (fun i => Qc2R (vget pi i) * (- ln lam - ln (v i)) + Qc2R (vget pi i) * lsumR (map (fun j => Qc2R (mget P i j) * ln (v j)) (seq 0 n))) (seq 0 n)))%R.
    + f_equal. apply ls_ext. intros i Hi. apply in_seq0 in Hi. rewrite <- Rmult_plus_distr_l. f_equal.
      rewrite (ls_ext _ _ (fun j => Qc2R (mget P i j) * (- ln lam - ln (v i)) + Qc2R (mget P i j) * ln (v j))%R).
      * rewrite ls_plus, ls_mul_r, <- (Qc2R_sumn n (fun j => mget P i j)), (proj2 (proj2 St) i Hi). rewrite Qc2R_1. lra.
      * intros j Hj. apply in_seq0 in Hj. rewrite ln_mult; [|apply Rinv_0_lt_compat, Rmult_lt_0_compat; auto|apply Vp; exact Hj].
        rewrite ln_Rinv, ln_mult by (try apply Rmult_lt_0_compat; auto). lra.
    + rewrite ls_plus, stationary_avg, <- ls_plus.
      rewrite (ls_ext _ _ (fun i => Qc2R (vget pi i) * - ln lam)%R) by (intros; lra). rewrite ls_mul_r, pi_sum_R. lra.
Qed.
End CHAIN.

Lemma rsum_erate n P pi : stochastic n P ->
  rsum n (fun i => rsum n (fun j => if Qcltb 0 (mget P i j) then (Qc2R (vget pi i) * Qc2R (mget P i j) * ln (Qc2R (mget P i j)))%R else 0%R)) = (- erate n P pi)%R.
Proof.
  intros St. unfold erate. rewrite Ropp_involutive, rsum_lsum. apply ls_ext. intros i Hi. rewrite rsum_lsum, <- ls_mul. apply ls_ext. intros j Hj.
  apply in_seq in Hi, Hj. destruct (pos_or_0 _ (proj1 (proj2 St) i j ltac:(lia) ltac:(lia))) as [Pp|E0].
  - rewrite (proj2 (Qcltb_lt 0 (mget P i j)) Pp), xlogx_pos by exact Pp. lra.
  - rewrite E0. change (Qcltb 0 0q) with false. cbv iota. rewrite xlogx_0. lra.
Qed.
Lemma atol_R : Qc2R atol = (/ 100000000)%R.
Proof. unfold Qc2R, atol. replace (this (Q2Qc (1 # 100000000))) with (1 # 100000000)%Q by reflexivity. unfold Q2R. cbn [Qnum Qden]. lra. Qed.
Lemma entropy_rate_value n m pi : env_ok n m -> stationary_distributions (en_p m) (en_comps m) = Ok [pi] ->
  entropy_rate m = Ok (Some (if isclose0R (- erate n (en_p m) pi) then (- erate n (en_p m) pi)%R else erate n (en_p m) pi)).
Proof.
  intros Hm E. unfold entropy_rate. rewrite E. cbn [bind length Nat.ltb Nat.leb]. unfold pi0. rewrite E. cbn [bind].
  rewrite (env_size n m Hm), rsum_erate by apply Hm. rewrite Ropp_involutive. reflexivity.
Qed.
Lemma isclose0R_spec h : isclose0R h = true <-> (Rabs h <= / 100000000)%R.
Proof. unfold isclose0R. rewrite atol_R. destruct (Rle_dec _ _); split; intros; (assumption || reflexivity || discriminate || contradiction). Qed.
Lemma entropy_rate_spec n m : env_ok n m -> one_recurrent_class n (en_p m) ->
  exists pi r h, distribution n pi /\ stationary n (en_p m) pi /\ entropy_per_step n (en_p m) pi r /\
    (0 <= r <= ln (INR n))%R /\ (r = 0%R <-> deterministic n (en_p m) pi) /\
    entropy_rate m = Ok (Some h) /\ ((/ 100000000 < r)%R -> h = r) /\ ((r <= / 100000000)%R -> h = (- r)%R).
Proof.
  intros Hm One. destruct (one_pi n m Hm One) as (pi & E & _ & D & S0 & _). pose proof Hm as (Hn & St & _).
  set (r := erate n (en_p m) pi). assert (Rp : (0 <= r)%R) by (apply erate_nonneg; assumption).
  exists pi, r, (if isclose0R (- r) then (- r)%R else r).
  split; [exact D|]. split; [exact S0|]. split; [apply erate_step; assumption|].
  split; [split; [exact Rp|apply erate_ln_n; try assumption; lia]|]. split; [apply erate_zero; assumption|].
  split; [apply (entropy_rate_value n m pi Hm E)|].
  pose proof (isclose0R_spec (- r)) as I. rewrite Rabs_Ropp, Rabs_right in I by lra.
  destruct (isclose0R (- r)); split; intros H; try reflexivity.
  - exfalso. assert (r <= / 100000000)%R by (apply I; reflexivity). lra.
  - exfalso. apply I in H. discriminate.
Qed.
Lemma entropy_rate_several n m i j : env_ok n m -> recurrent n (edge (en_p m)) i -> recurrent n (edge (en_p m)) j -> ~ reach n (edge (en_p m)) i j ->
  entropy_rate m = Ok None /\ forall ev, entropy_rate_normalized ev m = Ok None.
Proof.
  intros H Ri Rj NR. destruct (several_classes n m i j H Ri Rj NR) as (pis & E & L).
  assert (A : entropy_rate m = Ok None) by (unfold entropy_rate; rewrite E; cbn [bind]; apply Nat.ltb_lt in L; rewrite L; reflexivity).
  split; [exact A|]. intros ev. unfold entropy_rate_normalized. rewrite A. reflexivity.
Qed.
Lemma entropy_normalized_spec n m lam v : env_ok n m -> one_recurrent_class n (en_p m) -> adjacency_eigen n (en_p m) lam v ->
  exists pi r x, distribution n pi /\ stationary n (en_p m) pi /\ entropy_per_step n (en_p m) pi r /\
    entropy_rate_normalized lam m = Ok (Some x) /\ (0 <= x <= 1)%R /\
    ((/ 100000000 < r)%R -> x = (r / ln lam)%R) /\ ((r <= / 100000000)%R -> x = 0%R).
Proof.
  intros Hm One Ev. destruct (one_pi n m Hm One) as (pi & E & _ & D & S0 & _). pose proof Hm as (Hn & St & _).
  set (r := erate n (en_p m) pi). assert (Rp : (0 <= r)%R) by (apply erate_nonneg; assumption).
  assert (Rt : (r <= ln lam)%R) by (eapply erate_topological; eassumption).
  pose proof (isclose0R_spec (- r)) as I. rewrite Rabs_Ropp, Rabs_right in I by lra.
  pose proof (isclose0R_spec r) as I2. rewrite Rabs_right in I2 by lra.
  pose proof (entropy_rate_value n m pi Hm E) as V. fold r in V. unfold entropy_rate_normalized.
  exists pi, r. destruct (isclose0R (- r)) eqn:C.
  - exists 0%R. split; [exact D|]. split; [exact S0|]. split; [apply erate_step; assumption|]. rewrite V. cbn [bind].
    rewrite C. split; [reflexivity|]. split; [lra|]. split; intros H; [|reflexivity]. exfalso. assert (r <= / 100000000)%R by (apply I; reflexivity). lra.
  - assert (Lr : (/ 100000000 < r)%R) by (apply Rnot_le_lt; intros H; apply I in H; discriminate).
    assert (C2 : isclose0R r = false) by (destruct (isclose0R r); [|reflexivity]; exfalso; assert (r <= / 100000000)%R by (apply I2; reflexivity); lra).
    assert (Lp : (0 < ln lam)%R) by lra.
    assert (B : (0 <= r / ln lam <= 1)%R).
    { split; [apply Rmult_le_pos; [exact Rp|apply Rlt_le, Rinv_0_lt_compat, Lp]|]. apply (Rmult_le_reg_r (ln lam)); [exact Lp|]. unfold Rdiv. rewrite Rmult_assoc, Rinv_l by lra. lra. }
    exists (r / ln lam)%R. split; [exact D|]. split; [exact S0|]. split; [apply erate_step; assumption|]. rewrite V. cbn [bind]. rewrite C2.
    destruct (Req_EM_T (ln lam) 0); [lra|]. rewrite Rmax_right, Rmin_right by lra. split; [reflexivity|]. split; [exact B|]. split; intros H; [reflexivity|lra].
Qed.
