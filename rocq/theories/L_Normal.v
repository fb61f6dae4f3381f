(** L_Normal: the normal distribution function exists, is unique and tends to one (Gauss's integral). *)
From Coq Require Import Reals Lra Lia Psatz.
From Verif Require Import Calc S_Normal.
Local Open Scope R_scope.

Definition gs (x : R) : R := exp (- (x * x)).
Lemma gs_deriv : deriv gs (fun x => - 2 * x * gs x).
Proof.
  unfold gs. eapply deriv_ext.
  - apply (deriv_comp (fun x => - (x * x)) exp (fun x => - 2 * x) exp); [|apply deriv_exp].
    eapply deriv_fun; [eapply deriv_ext; [apply (deriv_scal (-1) (fun x => x * x)), deriv_mult; apply deriv_id|]|];
      intros; cbn beta; ring.
  - intros x; cbn beta; ring.
Qed.
Definition erf_ : R -> R := prim gs (deriv_cont _ _ gs_deriv).
Lemma erf_deriv : deriv erf_ gs. Proof. apply prim_deriv. Qed.
Lemma erf_0 : erf_ 0 = 0. Proof. apply prim_0. Qed.

Lemma w_pos t : 1 <= 1 + t * t. Proof. nra. Qed.
(** the auxiliary integrand *)
Definition kern (x t : R) : R := exp (- (x * x) * (1 + t * t)) * / (1 + t * t).
Lemma inv_w_deriv : deriv (fun t => / (1 + t * t)) (fun t => - (2 * t) * / ((1 + t * t) * (1 + t * t))).
Proof.
  intros t. pose proof (w_pos t).
  assert (D : derivable_pt_lim (fun t => 1 + t * t) t (2 * t)).
  { replace (2 * t) with (0 + (1 * t + t * 1)) by ring. apply derivable_pt_lim_plus; [apply derivable_pt_lim_const|].
    apply (derivable_pt_lim_mult (fun x => x) (fun x => x)); apply derivable_pt_lim_id. }
  assert (N : 1 + t * t <> 0) by lra.
  pose proof (derivable_pt_lim_div (fun _ => 1) (fun t => 1 + t * t) t 0 (2 * t) (derivable_pt_lim_const 1 t) D N) as Q.
  cbn in Q. unfold div_fct in Q.
  replace (- (2 * t) * / ((1 + t * t) * (1 + t * t))) with ((0 * (1 + t * t) - 2 * t * 1) / Rsqr (1 + t * t)).
  2: { unfold Rsqr. field. lra. }
  intros e He. destruct (Q e He) as [d Hd]. exists d. intros h H0 H1. specialize (Hd h H0 H1).
  unfold Rdiv at 2 3 in Hd. rewrite !Rmult_1_l in Hd. exact Hd.
Qed.
Lemma kern_cont x : continuity (kern x).
Proof.
  unfold kern. eapply deriv_cont. apply deriv_mult; [|apply inv_w_deriv].
  apply (deriv_comp (fun t => - (x * x) * (1 + t * t)) exp (fun t => - (x * x) * (2 * t)) exp); [|apply deriv_exp].
  apply deriv_scal. eapply deriv_ext; [apply deriv_plus; [apply deriv_const|apply deriv_mult; apply deriv_id]|intros; cbn beta; ring].
Qed.
Definition aux (x : R) : R -> R := prim (kern x) (kern_cont x).
Lemma aux_deriv x : deriv (aux x) (kern x). Proof. apply prim_deriv. Qed.
Lemma aux_0 x : aux x 0 = 0. Proof. apply prim_0. Qed.

Lemma y_exp y : 0 <= y -> 0 <= y * exp (- y) <= 1.
Proof.
  intros Y. pose proof (exp_pos (- y)). split; [nra|].
  pose proof (exp_ineq1_le y) as E. pose proof (exp_pos y).
  assert (exp y * exp (- y) = 1) by (rewrite <- exp_plus, Rplus_opp_r; apply exp_0). nra.
Qed.
Lemma exp_neg_le1 y : 0 <= y -> exp (- y) <= 1.
Proof. intros Y. rewrite <- exp_0. destruct Y as [Y|<-]; [left; apply exp_increasing; lra|rewrite Ropp_0; lra]. Qed.

(** expansion of the integrand in the parameter *)
Lemma kern_taylor t x h :
  Rabs (kern (x + h) t - kern x t - h * (- 2 * x * exp (- (x * x) * (1 + t * t)))) <= 6 * (h * h).
Proof.
  set (w := 1 + t * t). assert (W : 1 <= w) by apply w_pos.
  assert (EX : deriv (fun x => exp (- (x * x) * w)) (fun x => exp (- (x * x) * w) * (- 2 * x * w))).
  { apply (deriv_comp (fun x => - (x * x) * w) exp (fun x => - 2 * x * w) exp); [|apply deriv_exp].
    eapply deriv_fun; [eapply deriv_ext; [apply (deriv_scal (- w) (fun x => x * x)), deriv_mult; apply deriv_id|]|];
      intros; cbn beta; ring. }
  apply (taylor2 (fun x => kern x t) (fun x => - 2 * x * exp (- (x * x) * w))
    (fun x => (- 2 + 4 * (x * x * w)) * exp (- (x * x) * w))).
  - eapply deriv_fun; [eapply deriv_ext; [apply (deriv_scal (/ w)), EX|]|].
    + intros y. cbn beta. field. lra.
    + intros y. unfold kern. fold w. ring.
  - eapply deriv_ext; [apply deriv_mult; [apply (deriv_scal (-2) (fun x => x)), deriv_id|apply EX]|].
    intros y. cbn beta. ring.
  - intros y. assert (Y : 0 <= y * y * w) by nra.
    replace (- (y * y) * w) with (- (y * y * w)) by ring.
    pose proof (y_exp _ Y). pose proof (exp_neg_le1 _ Y). pose proof (exp_pos (- (y * y * w))).
    apply Rabs_le. lra.
Qed.
Lemma scale_deriv x : deriv (fun t => erf_ (x * t)) (fun t => x * exp (- (x * x) * (t * t))).
Proof.
  eapply deriv_ext.
  - apply (deriv_comp (fun t => x * t) erf_ (fun _ => x) gs); [|apply erf_deriv].
    eapply deriv_ext; [apply (deriv_scal x (fun t => t)), deriv_id|intros; cbn beta; ring].
  - intros t. cbn beta. unfold gs. rewrite Rmult_comm. f_equal. f_equal. ring.
Qed.
Lemma aux_param : deriv (fun x => aux x 1) (fun x => - 2 * gs x * erf_ x).
Proof.
  apply (deriv_quad _ _ 6); [lra|]. intros x h _.
  set (err := fun t => aux (x + h) t - aux x t - h * (- 2 * gs x * erf_ (x * t))).
  assert (E0 : err 0 = 0) by (unfold err; rewrite !aux_0, Rmult_0_r, erf_0; ring).
  replace (aux (x + h) 1 - aux x 1 - h * (-2 * gs x * erf_ x)) with (err 1 - err 0)
    by (rewrite E0; unfold err; rewrite Rmult_1_r; ring).
  replace (6 * (h * h)) with (6 * (h * h) * (1 - 0)) by ring.
  apply (deriv_dom err (fun t => t)
    (fun t => kern (x + h) t - kern x t - h * (- 2 * gs x * (x * exp (- (x * x) * (t * t))))) (fun _ => 1)); [| |intros t _|lra].
  - unfold err. apply deriv_minus; [apply deriv_minus; apply aux_deriv|]. apply deriv_scal, deriv_scal, scale_deriv.
  - apply deriv_id.
  - rewrite Rmult_1_r. pose proof (kern_taylor t x h) as K.
    replace (-2 * gs x * (x * exp (- (x * x) * (t * t)))) with (-2 * x * exp (- (x * x) * (1 + t * t))); auto.
    unfold gs. rewrite Rmult_plus_distr_l, Rmult_1_r, exp_plus. ring.
Qed.
Lemma aux_zero : aux 0 1 = PI / 4.
Proof.
  assert (E : aux 0 1 - aux 0 0 = atan 1 - atan 0).
  { apply (deriv_same (aux 0) atan (kern 0)); [apply aux_deriv|]. intros t.
    replace (kern 0 t) with (/ (1 + t ^ 2)) by (unfold kern; replace (1 + t ^ 2) with (1 + t * t) by ring; rewrite Rmult_0_l, Ropp_0, Rmult_0_l, exp_0; ring).
    apply derivable_pt_lim_atan. }
  rewrite aux_0, atan_1, atan_0 in E. lra.
Qed.
Lemma gauss_sum x : erf_ x * erf_ x + aux x 1 = PI / 4.
Proof.
  rewrite <- aux_zero. transitivity (erf_ 0 * erf_ 0 + aux 0 1); [|rewrite erf_0; ring].
  apply (deriv_zero (fun x => erf_ x * erf_ x + aux x 1)).
  eapply deriv_ext; [apply deriv_plus; [apply deriv_mult; apply erf_deriv|apply aux_param]|intros; cbn beta; ring].
Qed.
Lemma aux_bound x : 0 <= aux x 1 <= exp (- (x * x)).
Proof.
  assert (K : forall t, 0 <= kern x t <= exp (- (x * x))).
  { intros t. unfold kern. pose proof (w_pos t) as W. pose proof (exp_pos (- (x * x) * (1 + t * t))) as P.
    assert (I : 0 < / (1 + t * t) <= 1).
    { split; [apply Rinv_0_lt_compat; lra|]. rewrite <- Rinv_1. apply Rinv_le_contravar; lra. }
    assert (B : exp (- (x * x) * (1 + t * t)) <= exp (- (x * x))).
    { rewrite Rmult_plus_distr_l, Rmult_1_r, exp_plus. pose proof (exp_pos (- (x * x))).
      assert (exp (- (x * x) * (t * t)) <= 1); [|nra].
      replace (- (x * x) * (t * t)) with (- ((x * t) * (x * t))) by ring. apply exp_neg_le1. nra. }
    split; [nra|]. nra. }
  split.
  - rewrite <- (aux_0 x). apply (deriv_incr (aux x) (kern x) 0 1 (aux_deriv x)); [intros; apply K|lra].
  - pose proof (deriv_dom (aux x) (fun t => t) (kern x) (fun _ => 1) (exp (- (x * x))) 0 1 (aux_deriv x) deriv_id) as D.
    rewrite aux_0 in D. assert (Q : Rabs (aux x 1 - 0) <= exp (- (x * x)) * (1 - 0)).
    { apply D; [|lra]. intros t _. rewrite Rabs_pos_eq; [|apply K]. rewrite Rmult_1_r. apply K. }
    apply Rabs_both in Q. lra.
Qed.
Lemma erf_nonneg x : 0 <= x -> 0 <= erf_ x.
Proof. intros X. rewrite <- erf_0. apply (deriv_incr erf_ gs 0 x erf_deriv); auto. intros; left; apply exp_pos. Qed.
Lemma erf_odd x : erf_ (- x) = - erf_ x.
Proof.
  assert (E : erf_ x + erf_ (- x) = erf_ 0 + erf_ (- 0)).
  { apply (deriv_zero (fun x => erf_ x + erf_ (- x))). eapply deriv_ext.
    - apply deriv_plus; [apply erf_deriv|].
      apply (deriv_comp (fun x => - x) erf_ (fun _ => - 1) gs); [|apply erf_deriv].
      eapply deriv_fun; [eapply deriv_ext; [apply (deriv_scal (-1) (fun x => x)), deriv_id|]|]; intros; cbn beta; ring.
    - intros y. cbn beta. unfold gs. replace (- y * - y) with (y * y) by ring. ring. }
  rewrite Ropp_0, erf_0 in E. lra.
Qed.
Lemma sqrt_pi : 0 < sqrt PI /\ sqrt PI * sqrt PI = PI /\ 1 <= sqrt PI.
Proof.
  pose proof PI_RGT_0 as P. assert (P4 : 1 <= PI) by (pose proof PI2_1; lra).
  split; [now apply sqrt_lt_R0|]. split; [apply sqrt_sqrt; lra|]. rewrite <- sqrt_1. apply sqrt_le_1; lra.
Qed.
Lemma gauss_right : to_right erf_ (sqrt PI / 2).
Proof.
  destruct sqrt_pi as (S0 & S2 & S1). intros e He. exists (2 / e + 1). intros x X.
  assert (I : 0 < 2 / e) by (apply Rdiv_lt_0_compat; lra).
  assert (X0 : 1 <= x) by lra. set (r := sqrt PI / 2) in *. assert (R0 : / 2 <= r) by (unfold r; lra).
  pose proof (gauss_sum x) as G. pose proof (aux_bound x) as B. pose proof (erf_nonneg x ltac:(lra)) as E0.
  assert (RR : r * r = PI / 4) by (unfold r; nra).
  assert (Q : Rabs (erf_ x - r) <= 2 * exp (- (x * x))).
  { apply Rabs_le. assert ((r - erf_ x) * (r + erf_ x) = aux x 1) by nra. split; [|nra].
    assert (r - erf_ x <= 2 * aux x 1); [|lra]. nra. }
  eapply Rle_trans; [exact Q|]. pose proof (y_exp (x * x) ltac:(nra)) as Y. pose proof (exp_pos (- (x * x))).
  assert (x * exp (- (x * x)) <= 1) by nra.
  assert (2 / e * exp (- (x * x)) <= 1) by nra.
  replace (2 * exp (- (x * x))) with (e * (2 / e * exp (- (x * x)))) by (field; lra). nra.
Qed.

(** ** the distribution function *)
Definition Phi (x : R) : R := / 2 + erf_ (/ sqrt 2 * x + 0) * / sqrt PI.
Lemma sqrt2 : 0 < sqrt 2 /\ sqrt 2 * sqrt 2 = 2.
Proof. split; [apply sqrt_lt_R0; lra|apply sqrt_sqrt; lra]. Qed.
Lemma Phi_deriv : deriv Phi phi.
Proof.
  destruct sqrt_pi as (S0 & S2 & S1). destruct sqrt2 as [T0 T2].
  unfold Phi. eapply deriv_ext.
  - apply deriv_plus; [apply deriv_const|]. apply deriv_mult; [|apply deriv_const].
    apply (deriv_comp (fun x => / sqrt 2 * x + 0) erf_ (fun _ => / sqrt 2) gs); [apply deriv_lin|apply erf_deriv].
  - intros x. cbn beta. unfold phi, gs. rewrite sqrt_mult by (pose proof PI_RGT_0; lra).
    replace (- ((/ sqrt 2 * x + 0) * (/ sqrt 2 * x + 0))) with (- (x * x) / 2).
    + field. lra.
    + assert (V : / sqrt 2 * / sqrt 2 = / 2) by (rewrite <- Rinv_mult_distr by lra; now rewrite T2). 
      replace ((/ sqrt 2 * x + 0) * (/ sqrt 2 * x + 0)) with (/ sqrt 2 * / sqrt 2 * (x * x)) by ring. rewrite V. field.
Qed.
Lemma Phi_sym x : Phi (- x) = 1 - Phi x.
Proof. unfold Phi. replace (/ sqrt 2 * - x + 0) with (- (/ sqrt 2 * x + 0)) by ring. rewrite erf_odd. lra. Qed.
Lemma Phi_right : to_right Phi 1.
Proof.
  destruct sqrt_pi as (S0 & S2 & S1). destruct sqrt2 as [T0 T2].
  pose proof (to_right_affine erf_ _ (/ sqrt 2) 0 (Rinv_0_lt_compat _ T0) gauss_right) as A.
  apply (to_right_scal (- / sqrt PI)) in A. pose proof (to_right_minus _ _ _ _ (to_right_const (/ 2)) A) as B.
  replace 1 with (/ 2 - - / sqrt PI * (sqrt PI / 2)) by (field; lra).
  eapply to_right_ext; [exact B|]. intros x. unfold Phi. cbn beta. ring.
Qed.
Lemma Phi_left : to_left Phi 0.
Proof.
  pose proof (to_left_minus _ _ _ _ (to_left_const 1) (to_right_opp _ _ Phi_right)) as A.
  replace 0 with (1 - 1) by ring. eapply to_left_ext; [exact A|]. intros x. cbn beta. rewrite Phi_sym. ring.
Qed.
Theorem Phi_normal : normal_cdf Phi.
Proof. split; [exact Phi_deriv|exact Phi_left]. Qed.
Theorem normal_unique F : normal_cdf F -> forall x, F x = Phi x.
Proof.
  intros [D L] x.
  assert (C : forall y, F y - Phi y = F x - Phi x).
  { intros y. pose proof (deriv_same F Phi phi x y D Phi_deriv). lra. }
  pose proof (to_left_minus _ _ _ _ L Phi_left) as A.
  assert (B : to_left (fun y => F y - Phi y) (F x - Phi x)) by (eapply to_left_ext; [apply to_left_const|intros y; symmetry; apply C]).
  pose proof (to_left_unique _ _ _ A B). lra.
Qed.
Lemma phi_pos x : 0 < phi x.
Proof.
  unfold phi. apply Rdiv_lt_0_compat; [apply exp_pos|]. apply sqrt_lt_R0. pose proof PI_RGT_0; lra.
Qed.
Lemma Phi_incr x y : x < y -> Phi x < Phi y.
Proof.
  intros L. destruct (deriv_mvt Phi phi x y Phi_deriv L) as (c & E & _). pose proof (phi_pos c). nra.
Qed.
Lemma Phi_le x y : x <= y -> Phi x <= Phi y.
Proof. intros [L| ->]; [left; now apply Phi_incr|lra]. Qed.
Lemma Phi_range x : 0 < Phi x < 1.
Proof.
  assert (P : forall y, 0 < Phi y).
  { intros y. apply (Rle_lt_trans _ (Phi (y - 1))); [|apply Phi_incr; lra].
    apply (to_left_le (fun z => Phi z) 0 _ Phi_left). exists (y - 1). intros z Z. now apply Phi_le. }
  split; [apply P|]. pose proof (P (- x)) as Q. rewrite Phi_sym in Q. lra.
Qed.
Lemma Phi_onto u : 0 < u < 1 -> { x | Phi x = u }.
Proof.
  intros U.
  assert (X : exists a, Phi a <= u).
  { destruct (Phi_left u ltac:(lra)) as [T H]. exists T. specialize (H T ltac:(lra)). apply Rabs_both in H. lra. }
  assert (Y : exists b, u <= Phi b).
  { destruct (Phi_right (1 - u) ltac:(lra)) as [T H]. exists T. specialize (H T ltac:(lra)). apply Rabs_both in H. lra. }
  destruct (completeness (fun x => Phi x <= u)) as [s [Up Lo]].
  - destruct Y as [b B]. exists b. intros x Hx. destruct (Rle_dec x b); auto. pose proof (Phi_incr b x ltac:(lra)). lra.
  - exact X.
  - exists s. assert (C : continuity Phi) by exact (deriv_cont _ _ Phi_deriv).
    destruct (Rtotal_order (Phi s) u) as [L|[E|L]]; auto; exfalso.
    + destruct (C s (u - Phi s) ltac:(lra)) as (d & D0 & D). cbn in D.
      assert (Phi (s + d / 2) <= u).
      { specialize (D (s + d / 2)). unfold D_x, no_cond, R_dist in D. assert (Rabs (Phi (s + d / 2) - Phi s) < u - Phi s).
        { apply D. split; [split; auto; lra|]. replace (s + d / 2 - s) with (d / 2) by ring. rewrite Rabs_pos_eq; lra. }
        pose proof (Rle_abs (Phi (s + d / 2) - Phi s)). lra. }
      specialize (Up (s + d / 2) H). lra.
    + destruct (C s (Phi s - u) ltac:(lra)) as (d & D0 & D). cbn in D.
      assert (H : u < Phi (s - d / 2)).
      { specialize (D (s - d / 2)). unfold D_x, no_cond, R_dist in D. assert (Rabs (Phi (s - d / 2) - Phi s) < Phi s - u).
        { apply D. split; [split; auto; lra|]. replace (s - d / 2 - s) with (- (d / 2)) by ring. rewrite Rabs_Ropp, Rabs_pos_eq; lra. }
        pose proof (Rle_abs (- (Phi (s - d / 2) - Phi s))). rewrite Rabs_Ropp in *. lra. }
      assert (s <= s - d / 2); [|lra]. apply Lo. intros x Hx. destruct (Rle_dec x (s - d / 2)); auto.
      pose proof (Phi_le (s - d / 2) x ltac:(lra)). lra.
Qed.
