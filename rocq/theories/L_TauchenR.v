(** L_TauchenR: Tauchen's approximation follows Tauchen's method and keeps the order of the process. *)
From Coq Require Import Reals Lra Lia Psatz List ZArith.
From Verif Require Import Base Calc S_Normal L_Normal S_Adda L_Adda L_Adda2 S_TauchenR M_TauchenR.
Import ListNotations.
Local Open Scope R_scope.

Definition tol : R := 1 / 100000000 + 1 / 100000.
Lemma tr_rho_far rho : tol < Rabs (rho - 1) -> tr_rho rho = rho.
Proof. unfold tr_rho, tol. intros H. destruct (Rle_dec _ _); [lra|reflexivity]. Qed.
Lemma tr_rho_near rho : Rabs (rho - 1) <= tol -> tr_rho rho = 1 - 1 / 100000000.
Proof. unfold tr_rho, tol. intros H. destruct (Rle_dec _ _); [reflexivity|lra]. Qed.
Lemma tr_rho_range rho : -1 <= rho <= 1 -> rho = -1 /\ tr_rho rho = -1 \/ -1 < rho /\ -1 < tr_rho rho < 1.
Proof.
  intros R. unfold tr_rho. destruct (Rle_dec (Rabs (rho - 1)) (1 / 100000000 + 1 / 100000)) as [L|L].
  - right. apply Rabs_both in L. lra.
  - destruct (Req_dec rho (-1)) as [E|E]; [left; auto|]. right. split; [lra|]. split; [lra|].
    apply Rnot_le_lt. intros H. apply L. replace rho with 1 by lra. rewrite Rminus_eq_0, Rabs_R0. lra.
Qed.

Lemma tauchen_ok cdf size alpha sigma rho k p : approximation_tauchen cdf size alpha sigma rho k = Ok p ->
  (2 <= Z.to_nat size)%nat /\ 0 < sigma /\ -1 < rho <= 1 /\ -1 < tr_rho rho < 1 /\
  exists k', (k = None /\ k' = 3 \/ k = Some k') /\ 1 <= k' /\ p = tr_entry cdf (Z.to_nat size) sigma (tr_rho rho) k'.
Proof.
  unfold approximation_tauchen. destruct (Z.leb_spec 2 size); [|discriminate]. cbn.
  destruct (Rlt_dec 0 sigma); [|discriminate]. cbn.
  destruct (Rle_dec (-1) rho) as [R1|]; [|discriminate]. destruct (Rle_dec rho 1) as [R2|]; [|discriminate]. cbn.
  set (q := match k with None => _ | Some _ => _ end).
  assert (K : forall k', q = Ok k' -> (k = None /\ k' = 3 \/ k = Some k') /\ 1 <= k').
  { intros k' E. unfold q in E. destruct k as [k0|]; [|injection E as <-; split; [auto|lra]].
    destruct (Rle_dec 1 k0); [|discriminate]. cbn in E. injection E as <-. auto. }
  destruct q as [k'|]; [|discriminate]. cbn. destruct (K k' eq_refl) as [K1 K2].
  destruct (Req_EM_T (1 - tr_rho rho * tr_rho rho) 0) as [|N]; [discriminate|]. intros [= <-].
  destruct (tr_rho_range rho ltac:(lra)) as [[E1 E2]|[E1 E2]]; [exfalso; apply N; rewrite E2; lra|].
  repeat split; try lra; [lia|]. exists k'. auto.
Qed.
Theorem tauchen_accepts cdf size alpha sigma rho k :
  (exists p, approximation_tauchen cdf size alpha sigma rho k = Ok p) <->
  (2 <= size)%Z /\ 0 < sigma /\ -1 < rho <= 1 /\ (forall k', k = Some k' -> 1 <= k').
Proof.
  split.
  - intros [p H]. destruct (tauchen_ok _ _ _ _ _ _ _ H) as (A & B & C & _ & k' & K & K1 & _). split; [lia|]. split; auto. split; auto.
    intros k0 ->. destruct K as [[? _]|E]; [discriminate|]. injection E as ->. auto.
  - intros (A & B & C & K). exists (tr_entry cdf (Z.to_nat size) sigma (tr_rho rho) (match k with None => 3 | Some k => k end)).
    unfold approximation_tauchen. destruct (Z.leb_spec 2 size); [|lia]. cbn.
    destruct (Rlt_dec 0 sigma); [|exfalso; lra]. cbn.
    destruct (Rle_dec (-1) rho); [|exfalso; lra]. destruct (Rle_dec rho 1); [|exfalso; lra]. cbn.
    destruct (tr_rho_range rho ltac:(lra)) as [[E1 E2]|[E1 E2]]; [exfalso; lra|].
    destruct k as [k|]; cbn.
    + destruct (Rle_dec 1 k) as [|N]; [|exfalso; apply N, K; reflexivity]. cbn.
      destruct (Req_EM_T (1 - tr_rho rho * tr_rho rho) 0); [exfalso; nra|reflexivity].
    + destruct (Req_EM_T (1 - tr_rho rho * tr_rho rho) 0); [exfalso; nra|reflexivity].
Qed.

(** ** the method *)
Section Method.
  Variables (n : nat) (k sd : R).
  Hypotheses (N : (2 <= n)%nat) (K : 0 < k) (SD : 0 < sd).
  Lemma n1_pos : 0 < INR n - 1.
  Proof. assert (INR 2 <= INR n) by (apply le_INR; lia). cbn in *. lra. Qed.
  Lemma grid_step i : grid n k sd (S i) = grid n k sd i + 2 * (k * sd) / (INR n - 1).
  Proof. pose proof n1_pos. unfold grid. rewrite S_INR. field. lra. Qed.
  Lemma step_pos : 0 < 2 * (k * sd) / (INR n - 1).
  Proof. apply Rdiv_lt_0_compat; [|apply n1_pos]. apply Rmult_lt_0_compat; [lra|now apply Rmult_lt_0_compat]. Qed.
  Lemma grid_le i : grid n k sd i <= grid n k sd (S i).
  Proof. rewrite grid_step. pose proof step_pos. lra. Qed.
  Lemma cell_lt j : (j < n)%nat -> ext_lt (cell n k sd j) (cell n k sd (S j)).
  Proof.
    intros J. unfold cell. destruct (Nat.eqb_spec (S j) 0); [lia|].
    destruct (Nat.eqb_spec j 0) as [->|J0]; [destruct (Nat.eqb_spec 1 n); cbn; auto|].
    destruct (Nat.eqb_spec j n); [lia|]. destruct (Nat.eqb_spec (S j) n); cbn [ext_lt]; auto.
    replace (S j - 1)%nat with (S (j - 1)) by lia. replace (S (j - 1)) with j at 2 by lia. 
    pose proof (grid_step (j - 1)) as G1. pose proof (grid_step j) as G2. replace (S (j - 1)) with j in * by lia.
    pose proof step_pos. lra.
  Qed.
  Lemma grid_mirror i : (i < n)%nat -> grid n k sd (n - 1 - i) = - grid n k sd i.
  Proof.
    intros I. pose proof n1_pos. unfold grid. rewrite !minus_INR by lia. cbn [INR]. field. lra.
  Qed.
  Lemma cell_mirror j : (j <= n)%nat -> cell n k sd (n - j) = neg (cell n k sd j).
  Proof.
    intros J. unfold cell.
    destruct (Nat.eqb_spec j 0) as [->|J0]; [rewrite Nat.sub_0_r; destruct (Nat.eqb_spec n 0); [lia|]; now rewrite Nat.eqb_refl|].
    destruct (Nat.eqb_spec j n) as [->|J1]; [now rewrite Nat.sub_diag|].
    destruct (Nat.eqb_spec (n - j) 0); [lia|]. destruct (Nat.eqb_spec (n - j) n); [lia|]. cbn [neg]. f_equal.
    replace (n - j - 1)%nat with (n - 1 - j)%nat by lia. rewrite (grid_mirror j) by lia.
    replace (n - j)%nat with (n - 1 - (j - 1))%nat by lia. rewrite grid_mirror by lia. lra.
  Qed.
End Method.

Lemma prob_total cdf mean sigma (c : nat -> ext) m : prob_below cdf mean sigma (c 0%nat) = 0 ->
  total m (fun j => prob_below cdf mean sigma (c (S j)) - prob_below cdf mean sigma (c j)) = prob_below cdf mean sigma (c m).
Proof.
  intros Z. rewrite (total_tele m (fun j => prob_below cdf mean sigma (c j))), Z. ring.
Qed.
Lemma prob_lt mean sigma a b : 0 < sigma -> ext_lt a b -> prob_below Phi mean sigma a < prob_below Phi mean sigma b.
Proof.
  intros S0 L. assert (I : 0 < / sigma) by now apply Rinv_0_lt_compat.
  destruct a, b; cbn in *; try easy; try apply Phi_range; [lra|]. apply Phi_incr. unfold Rdiv. nra.
Qed.
Lemma prob_mean mean mean' sigma a : 0 < sigma -> mean <= mean' -> prob_below Phi mean' sigma a <= prob_below Phi mean sigma a.
Proof.
  intros S0 L. assert (I : 0 < / sigma) by now apply Rinv_0_lt_compat.
  destruct a; cbn; try lra. apply Phi_le. unfold Rdiv. nra.
Qed.
Lemma prob_neg mean sigma a : 0 < sigma -> prob_below Phi (- mean) sigma (neg a) = 1 - prob_below Phi mean sigma a.
Proof.
  intros S0. destruct a; cbn; try ring. rewrite <- Phi_sym. f_equal. field. lra.
Qed.
Lemma prob_cdf cdf mean sigma a : normal_cdf cdf -> prob_below cdf mean sigma a = prob_below Phi mean sigma a.
Proof. intros C. destruct a; cbn; auto. apply (normal_unique cdf C). Qed.
Lemma sd_pos sigma rho : 0 < sigma -> -1 < rho < 1 -> 0 < sigma / sqrt (1 - rho * rho).
Proof. intros S0 R. apply Rdiv_lt_0_compat; auto. apply sqrt_lt_R0. nra. Qed.

(** ** the code computes the method *)
Lemma tr_std_eq sigma rho : 0 < sigma -> -1 < rho < 1 -> tr_std sigma rho = sigma / sqrt (1 - rho * rho).
Proof. intros S0 R. unfold tr_std. rewrite sqrt_div by nra. now rewrite sqrt_square by lra. Qed.
Section Code.
  Variables (n : nat) (sigma rho k : R).
  Hypotheses (N : (2 <= n)%nat) (S0 : 0 < sigma) (R1 : -1 < rho < 1).
  Let sd := sigma / sqrt (1 - rho * rho).
  Lemma n_1 : INR (n - 1) = INR n - 1.
  Proof. rewrite minus_INR by lia. reflexivity. Qed.
  Lemma tr_x_eq i : tr_x n sigma rho k i = grid n k sd i.
  Proof.
    unfold tr_x, tr_max, grid. rewrite n_1, tr_std_eq by auto. fold sd. pose proof (n1_pos n N). field. lra.
  Qed.
  Lemma tr_step_eq : tr_step n sigma rho k = k * sd / (INR n - 1).
  Proof. unfold tr_step, tr_max. rewrite n_1, tr_std_eq by auto. fold sd. pose proof (n1_pos n N). field. lra. Qed.
  Lemma mid_up j : grid n k sd j + tr_step n sigma rho k = (grid n k sd j + grid n k sd (S j)) / 2.
  Proof. rewrite grid_step, tr_step_eq by auto. pose proof (n1_pos n N). field. lra. Qed.
  Lemma mid_down j : grid n k sd (S j) - tr_step n sigma rho k = (grid n k sd j + grid n k sd (S j)) / 2.
  Proof. rewrite grid_step, tr_step_eq by auto. pose proof (n1_pos n N). field. lra. Qed.
  Lemma tr_entry_eq cdf i j : (i < n)%nat -> (j < n)%nat -> tr_entry cdf n sigma rho k i j = tauchen_method cdf n sigma rho k i j.
  Proof.
    intros I J. unfold tr_entry, tauchen_method. fold sd. rewrite !tr_x_eq. unfold cell.
    destruct (Nat.eqb_spec (S j) 0); [lia|]. destruct (Nat.eqb_spec j n); [lia|].
    destruct (Nat.eqb_spec j (n - 1)) as [E|E].
    - destruct (Nat.eqb_spec (S j) n); [|lia]. destruct (Nat.eqb_spec j 0); [lia|]. cbn [prob_below]. f_equal. f_equal. f_equal.
      rewrite <- E. replace j with (S (j - 1)) at 1 3 by lia. rewrite <- mid_down. lra.
    - destruct (Nat.eqb_spec (S j) n); [lia|].
      replace (S j - 1)%nat with j by lia.
      destruct (Nat.eqb_spec j 0) as [->|Z]; cbn [prob_below].
      + rewrite Rminus_0_r. f_equal. f_equal. rewrite <- mid_up. lra.
      + f_equal; [f_equal; f_equal; rewrite <- mid_up; lra|]. f_equal. f_equal.
        replace j with (S (j - 1)) at 1 3 by lia. rewrite <- mid_down. lra.
  Qed.
End Code.

(** the value used for k *)
Definition chosen (k : option R) : R := match k with None => 3 | Some k => k end.
Section Ok.
  Variables (cdf : R -> R) (size : Z) (alpha sigma rho : R) (k : option R) (p : nat -> nat -> R).
  Hypothesis OK : approximation_tauchen cdf size alpha sigma rho k = Ok p.
  Let n := Z.to_nat size.
  Lemma chosen_ok : (2 <= n)%nat /\ 0 < sigma /\ -1 < tr_rho rho < 1 /\ 1 <= chosen k /\
    forall i j, (i < n)%nat -> (j < n)%nat -> p i j = tauchen_method cdf n sigma (tr_rho rho) (chosen k) i j.
  Proof.
    destruct (tauchen_ok _ _ _ _ _ _ _ OK) as (A & B & _ & C & k' & E & K & ->). fold n in A.
    assert (Q : k' = chosen k) by (destruct E as [[-> ->]| ->]; reflexivity). subst k'.
    repeat split; auto; try lra. intros i j I J. now apply tr_entry_eq.
  Qed.
  Theorem tauchen_follows : tol < Rabs (rho - 1) -> forall i j, (i < n)%nat -> (j < n)%nat ->
    p i j = tauchen_method cdf n sigma rho (chosen k) i j.
  Proof. intros F i j I J. destruct chosen_ok as (_ & _ & _ & _ & H). rewrite <- (tr_rho_far rho F) at 1. now apply H. Qed.
  Hypothesis CDF : normal_cdf cdf.
  Let r := tr_rho rho.
  Let kk := chosen k.
  Let sd := sigma / sqrt (1 - r * r).
  Lemma p_phi i j : (i < n)%nat -> (j < n)%nat ->
    p i j = prob_below Phi (r * grid n kk sd i) sigma (cell n kk sd (S j)) - prob_below Phi (r * grid n kk sd i) sigma (cell n kk sd j).
  Proof. intros I J. destruct chosen_ok as (_ & _ & _ & _ & H). rewrite H by auto. unfold tauchen_method. now rewrite !(prob_cdf cdf) by auto. Qed.
  Lemma lower i m : (i < n)%nat -> (m <= n)%nat -> total m (p i) = prob_below Phi (r * grid n kk sd i) sigma (cell n kk sd m).
  Proof.
    intros I M. rewrite <- (prob_total Phi (r * grid n kk sd i) sigma (cell n kk sd) m); [|reflexivity].
    apply total_ext. intros j J. apply p_phi; lia.
  Qed.
  Theorem tauchen_positive i j : (i < n)%nat -> (j < n)%nat -> 0 < p i j.
  Proof.
    intros I J. destruct chosen_ok as (N & S0 & R & K & _). rewrite p_phi by auto.
    pose proof (sd_pos sigma r S0 R) as SD. fold sd in SD. assert (K0 : 0 < kk) by (unfold kk; lra).
    pose proof (prob_lt (r * grid n kk sd i) sigma _ _ S0 (cell_lt n kk sd N K0 SD j J)). lra.
  Qed.
  Theorem tauchen_rows i : (i < n)%nat -> total n (p i) = 1.
  Proof.
    intros I. destruct chosen_ok as (N & _). rewrite lower by auto. unfold cell. destruct (Nat.eqb_spec n 0); [lia|]. now rewrite Nat.eqb_refl.
  Qed.
  Theorem tauchen_monotone i m : 0 <= rho -> (S i < n)%nat -> (m <= n)%nat -> total m (p (S i)) <= total m (p i).
  Proof.
    intros R0 I M. destruct chosen_ok as (N & S0 & R & K & _). rewrite !lower by lia.
    pose proof (sd_pos sigma r S0 R) as SD. fold sd in SD. assert (K0 : 0 < kk) by (unfold kk; lra).
    apply prob_mean; auto. apply Rmult_le_compat_l; [|now apply grid_le].
    unfold r, tr_rho. destruct (Rle_dec _ _); lra.
  Qed.
  Theorem tauchen_mirror i j : (i < n)%nat -> (j < n)%nat -> p (n - 1 - i)%nat (n - 1 - j)%nat = p i j.
  Proof.
    intros I J. destruct chosen_ok as (N & S0 & R & K & _).
    rewrite !p_phi by lia. replace (S (n - 1 - j)) with (n - j)%nat by lia. replace (n - 1 - j)%nat with (n - S j)%nat by lia.
    rewrite (grid_mirror n kk sd N) by lia. rewrite !(cell_mirror n kk sd N) by lia.
    replace (r * - grid n kk sd i) with (- (r * grid n kk sd i)) by ring. rewrite !prob_neg by auto. ring.
  Qed.
  Theorem tauchen_independent i i' j : rho = 0 -> (i < n)%nat -> (i' < n)%nat -> (j < n)%nat -> p i j = p i' j.
  Proof.
    intros R I I' J. rewrite !p_phi by auto.
    assert (E : r = 0).
    { unfold r. rewrite tr_rho_far; auto. rewrite R. unfold tol. rewrite Rabs_left; lra. }
    rewrite E, !Rmult_0_l. reflexivity.
  Qed.
End Ok.

Definition escale (c : R) (z : ext) : ext := match z with MInf => MInf | Fin z => Fin (c * z) | PInf => PInf end.
Lemma prob_scale mean sigma z c : 0 < sigma -> 0 < c ->
  prob_below Phi (c * mean) (c * sigma) (escale c z) = prob_below Phi mean sigma z.
Proof. intros S0 C. destruct z; cbn; auto. f_equal. field. lra. Qed.
Theorem tauchen_units cdf size alpha alpha' sigma sigma' rho k p p' : normal_cdf cdf ->
  approximation_tauchen cdf size alpha sigma rho k = Ok p -> approximation_tauchen cdf size alpha' sigma' rho k = Ok p' ->
  forall i j, (i < Z.to_nat size)%nat -> (j < Z.to_nat size)%nat -> p i j = p' i j.
Proof.
  intros C O O' i j I J.
  rewrite (p_phi cdf size alpha sigma rho k p O C i j I J), (p_phi cdf size alpha' sigma' rho k p' O' C i j I J).
  destruct (chosen_ok cdf size alpha sigma rho k p O) as (N & S0 & R & K & _).
  destruct (chosen_ok cdf size alpha' sigma' rho k p' O') as (_ & S0' & _).
  set (n := Z.to_nat size) in *. set (r := tr_rho rho) in *. set (kk := chosen k) in *.
  set (c := sigma' / sigma). assert (C0 : 0 < c) by now apply Rdiv_lt_0_compat.
  assert (ES : sigma' = c * sigma) by (unfold c; field; lra).
  assert (Q0 : 0 < sqrt (1 - r * r)) by (apply sqrt_lt_R0; nra).
  set (sd := sigma / sqrt (1 - r * r)) in *.
  assert (ED : sigma' / sqrt (1 - r * r) = c * sd) by (rewrite ES; unfold sd; field; lra). rewrite ED.
  assert (G : forall i, grid n kk (c * sd) i = c * grid n kk sd i) by (intros; unfold grid; ring).
  assert (CE : forall j, cell n kk (c * sd) j = escale c (cell n kk sd j)).
  { intros a. unfold cell. destruct (Nat.eqb a 0); auto. destruct (Nat.eqb a n); auto. rewrite !G. cbn [escale]. f_equal. field. }
  rewrite G, !CE, ES. replace (r * (c * grid n kk sd i)) with (c * (r * grid n kk sd i)) by ring.
  now rewrite !prob_scale by auto.
Qed.

(** ** near one: the requested rho is replaced *)
Theorem tauchen_near cdf size alpha sigma rho rho' k : -1 <= rho <= 1 -> -1 <= rho' <= 1 ->
  Rabs (rho - 1) <= tol -> Rabs (rho' - 1) <= tol ->
  approximation_tauchen cdf size alpha sigma rho k = approximation_tauchen cdf size alpha sigma rho' k.
Proof.
  intros R R' T T'. unfold approximation_tauchen.
  destruct (Rle_dec (-1) rho); [|exfalso; lra]. destruct (Rle_dec rho 1); [|exfalso; lra].
  destruct (Rle_dec (-1) rho'); [|exfalso; lra]. destruct (Rle_dec rho' 1); [|exfalso; lra].
  now rewrite (tr_rho_near rho T), (tr_rho_near rho' T').
Qed.
Definition rho5 : R := 1 - 1 / 100000.
Lemma method_two cdf rho : -1 < rho < 1 -> tauchen_method cdf 2 1 rho 3 0 0 = cdf (3 * (rho / sqrt (1 - rho * rho))).
Proof.
  intros R. assert (Q0 : 0 < sqrt (1 - rho * rho)) by (apply sqrt_lt_R0; nra).
  unfold tauchen_method, cell, grid. cbn. rewrite Rminus_0_r. f_equal. field. lra.
Qed.
Theorem tauchen_replaced cdf : normal_cdf cdf -> exists p, approximation_tauchen cdf 2 0 1 rho5 None = Ok p /\
  p 0%nat 0%nat <> tauchen_method cdf 2 1 rho5 3 0 0.
Proof.
  intros C. destruct (proj2 (tauchen_accepts cdf 2 0 1 rho5 None)) as [p H].
  { split; [lia|]. unfold rho5. split; [lra|]. split; [lra|discriminate]. }
  exists p. split; auto. destruct (chosen_ok _ _ _ _ _ _ _ H) as (_ & _ & R & _ & E).
  change (Z.to_nat 2) with 2%nat in E. rewrite (E 0%nat 0%nat) by lia. cbn [chosen].
  rewrite (tr_rho_near rho5) in * by (unfold rho5, tol; rewrite Rabs_left; lra).
  rewrite !method_two by (unfold rho5; lra). rewrite !(normal_unique cdf C).
  set (a := 1 - 1 / 100000000). set (b := rho5). apply not_eq_sym, Rlt_not_eq, Phi_incr. apply Rmult_lt_compat_l; [lra|].
  assert (AB : 0 < b < a /\ a < 1) by (unfold a, b, rho5; lra).
  assert (SA : 0 < sqrt (1 - a * a)) by (apply sqrt_lt_R0; nra).
  assert (SL : sqrt (1 - a * a) < sqrt (1 - b * b)) by (apply sqrt_lt_1; nra).
  assert (/ sqrt (1 - b * b) < / sqrt (1 - a * a)) by (apply Rinv_lt_contravar; [apply Rmult_lt_0_compat; lra|auto]).
  assert (0 < / sqrt (1 - b * b)) by (apply Rinv_0_lt_compat; lra). unfold Rdiv. nra.
Qed.
