(** L_Bivar: the distribution function of a pair of correlated normal variables as an integral, and its symmetry. *)
From Coq Require Import Reals Lra Lia Psatz.
From Verif Require Import Calc S_Normal L_Normal.
Local Open Scope R_scope.

Lemma from_left F f l a : deriv F f -> (forall x, 0 <= f x) -> to_left F l -> l <= F a.
Proof.
  intros D P L. apply (to_left_le F l _ L). exists a. intros x X. apply (deriv_incr F f); auto.
Qed.
Lemma same_left F G f l a : deriv F f -> deriv G f -> to_left F l -> to_left G l -> F a = G a.
Proof.
  intros D E A B. pose proof (to_left_minus _ _ _ _ A B) as Q.
  assert (R : to_left (fun x => F x - G x) (F a - G a)).
  { eapply to_left_ext; [apply to_left_const|]. intros x. cbn beta. pose proof (deriv_same F G f a x D E). lra. }
  pose proof (to_left_unique _ _ _ Q R). lra.
Qed.
Lemma dom_left F G f g k a : deriv F f -> deriv G g -> (forall x, Rabs (f x) <= k * g x) ->
  to_left F 0 -> to_left G 0 -> Rabs (F a) <= k * G a.
Proof.
  intros D E H A B. apply Rabs_le. split.
  - assert (0 <= k * G a - - 1 * F a); [|lra].
    apply (from_left (fun x => k * G x - - 1 * F x) (fun x => k * g x - - 1 * f x)).
    + apply deriv_minus; now apply deriv_scal.
    + intros x. specialize (H x). apply Rabs_both in H. lra.
    + replace 0 with (k * 0 - - 1 * 0) by ring. apply to_left_minus; now apply to_left_scal.
  - assert (0 <= k * G a - F a); [|lra].
    apply (from_left (fun x => k * G x - F x) (fun x => k * g x - f x)).
    + apply deriv_minus; auto; now apply deriv_scal.
    + intros x. specialize (H x). apply Rabs_both in H. lra.
    + replace 0 with (k * 0 - 0) by ring. apply to_left_minus; auto; now apply to_left_scal.
Qed.

(** ** the density *)
Lemma phi_deriv : deriv phi (fun x => - x * phi x).
Proof.
  unfold phi. eapply deriv_fun with (F := fun x => / sqrt (2 * PI) * exp (- / 2 * (x * x))).
  - eapply deriv_ext; [apply deriv_scal, (deriv_comp (fun x => - / 2 * (x * x)) exp (fun x => - x) exp); [|apply deriv_exp]|].
    + eapply deriv_ext; [apply (deriv_scal (- / 2) (fun x => x * x)), deriv_mult; apply deriv_id|intros; cbn beta; lra].
    + intros x. cbn beta. replace (- / 2 * (x * x)) with (- (x * x) / 2) by lra. unfold Rdiv at 2. ring.
  - intros x. cbn beta. replace (- / 2 * (x * x)) with (- (x * x) / 2) by lra. unfold Rdiv at 2. ring.
Qed.
Lemma sqrt_2pi : 1 <= sqrt (2 * PI).
Proof. rewrite <- sqrt_1. apply sqrt_le_1; pose proof PI2_1; lra. Qed.
Lemma x_phi x : Rabs (- x * phi x) <= 1.
Proof.
  pose proof sqrt_2pi as S. unfold phi. set (e := exp (- (x * x) / 2)).
  assert (E0 : 0 < e) by apply exp_pos.
  assert (EE : e * e = exp (- (x * x))) by (unfold e; rewrite <- exp_plus; f_equal; lra).
  pose proof (y_exp (x * x) ltac:(nra)) as Y.
  assert (B : Rabs (x * e) <= 1).
  { apply Rabs_le. assert ((x * e) * (x * e) <= 1) by nra. nra. }
  replace (- x * (e / sqrt (2 * PI))) with (- (x * e) * / sqrt (2 * PI)) by (unfold Rdiv; ring).
  rewrite Rabs_mult, Rabs_Ropp, (Rabs_pos_eq (/ sqrt (2 * PI))).
  - assert (/ sqrt (2 * PI) <= 1) by (rewrite <- Rinv_1; apply Rinv_le_contravar; lra).
    assert (0 < / sqrt (2 * PI)) by (apply Rinv_0_lt_compat; lra). pose proof (Rabs_pos (x * e)). nra.
  - left. apply Rinv_0_lt_compat. lra.
Qed.

Section Bivar.
  Variables rho s : R.
  Hypotheses (S0 : 0 < s) (SS : s * s = 1 - rho * rho).
  Let lin b x := / s * b + (- rho * / s) * x.
  (** density times conditional probability *)
  Definition dens (b x : R) : R := phi x * Phi (lin b x).
  Lemma lin_dx b : deriv (lin b) (fun _ => - rho * / s).
  Proof. eapply deriv_fun; [apply (deriv_lin (- rho * / s) (/ s * b))|]. intros; unfold lin; ring. Qed.
  Lemma lin_db x : deriv (fun b => lin b x) (fun _ => / s).
  Proof. apply (deriv_lin (/ s) ((- rho * / s) * x)). Qed.
  Lemma dens_cont b : continuity (dens b).
  Proof.
    unfold dens. eapply deriv_cont. apply deriv_mult; [apply phi_deriv|].
    apply (deriv_comp (lin b) Phi _ phi (lin_dx b) Phi_deriv).
  Qed.
  Lemma dens_range b x : 0 <= dens b x <= phi x.
  Proof. unfold dens. pose proof (phi_pos x). pose proof (Phi_range (lin b x)). nra. Qed.
  Lemma dens_abs b x : Rabs (dens b x) <= 1 * phi x.
  Proof. pose proof (dens_range b x). rewrite Rabs_pos_eq; lra. Qed.
  Definition bprim (b : R) : R -> R := prim (dens b) (dens_cont b).
  Lemma bprim_deriv b : deriv (bprim b) (dens b). Proof. apply prim_deriv. Qed.
  Lemma bprim_mono b x y : x <= y -> bprim b x <= bprim b y.
  Proof. apply (deriv_incr _ _ x y (bprim_deriv b)). intros z _. apply dens_range. Qed.
  Lemma bprim_low b x : - 1 <= bprim b x.
  Proof.
    destruct (Rle_dec 0 x) as [X|X].
    - pose proof (bprim_mono b 0 x X) as H. unfold bprim in H at 1. rewrite prim_0 in H. lra.
    - pose proof (deriv_dom (bprim b) Phi (dens b) phi 1 x 0 (bprim_deriv b) Phi_deriv (fun y _ => dens_abs b y) ltac:(lra)) as H.
      unfold bprim in H at 1. rewrite prim_0 in H. apply Rabs_both in H. pose proof (Phi_range x). pose proof (Phi_range 0). lra.
  Qed.
  Definition blim (b : R) : R := proj1_sig (left_limit (bprim b) (- 1) (bprim_mono b) (bprim_low b)).
  (** the integral of [dens b] up to [a]: the probability of both variables being below *)
  Definition both (a b : R) : R := bprim b a - blim b.
  Lemma both_da b : deriv (fun a => both a b) (dens b).
  Proof. eapply deriv_ext; [apply (deriv_minus _ _ _ _ (bprim_deriv b) (deriv_const (blim b)))|intros; cbn beta; ring]. Qed.
  Lemma both_left b : to_left (fun a => both a b) 0.
  Proof.
    unfold both, blim. destruct (left_limit (bprim b) (-1) (bprim_mono b) (bprim_low b)) as [l [L H]]. cbn [proj1_sig].
    replace 0 with (l - l) by ring. apply to_left_minus; auto using to_left_const.
  Qed.
  Lemma both_nonneg a b : 0 <= both a b.
  Proof. apply (from_left (fun a => both a b) (dens b)); [apply both_da|intros; apply dens_range|apply both_left]. Qed.
  Lemma both_le a b : both a b <= Phi a.
  Proof.
    pose proof (dom_left (fun a => both a b) Phi (dens b) phi 1 a (both_da b) Phi_deriv (dens_abs b) (both_left b) Phi_left) as H.
    apply Rabs_both in H. lra.
  Qed.

  (** the other derivative *)
  Lemma swap a b : phi b * phi (lin a b) * / s = phi a * phi (lin b a) * / s.
  Proof.
    f_equal. unfold phi, Rdiv. set (k := / sqrt (2 * PI)).
    transitivity (exp (- (b * b) * / 2) * exp (- (lin a b * lin a b) * / 2) * (k * k)); [ring|].
    transitivity (exp (- (a * a) * / 2) * exp (- (lin b a * lin b a) * / 2) * (k * k)); [|ring].
    f_equal. rewrite <- !exp_plus. f_equal. unfold lin.
    assert (R : rho * rho = 1 - s * s) by lra.
    apply (Rmult_eq_reg_r (2 * (s * s))); [|nra].
    transitivity (- (b * b) * (s * s) - (a * a - 2 * rho * (a * b) + rho * rho * (b * b))); [field; lra|].
    transitivity (- (a * a) * (s * s) - (b * b - 2 * rho * (a * b) + rho * rho * (a * a))); [rewrite R; ring|field; lra].
  Qed.
  Lemma cond_deriv b : deriv (fun a => phi b * Phi (lin a b)) (fun a => phi a * phi (lin b a) * / s).
  Proof.
    eapply deriv_ext; [apply deriv_scal, (deriv_comp _ Phi _ phi (lin_db b) Phi_deriv)|].
    intros a. cbn beta. rewrite <- swap. ring.
  Qed.
  Lemma cond_left b : to_left (fun a => phi b * Phi (lin a b)) 0.
  Proof.
    replace 0 with (phi b * 0) by ring. apply to_left_scal.
    apply (to_left_affine Phi 0 (/ s) ((- rho * / s) * b)); [now apply Rinv_0_lt_compat|apply Phi_left].
  Qed.
  Lemma cond_taylor x b h : Rabs (Phi (lin (b + h) x) - Phi (lin b x) - h * (phi (lin b x) * / s)) <= / s * / s * (h * h).
  Proof.
    apply (taylor2 (fun b => Phi (lin b x)) (fun b => phi (lin b x) * / s) (fun b => - lin b x * phi (lin b x) * / s * / s)).
    - apply (deriv_comp _ Phi _ phi (lin_db x) Phi_deriv).
    - eapply deriv_ext; [apply deriv_mult; [apply (deriv_comp _ phi _ _ (lin_db x) phi_deriv)|apply deriv_const]|].
      intros y. cbn beta. ring.
    - intros y. assert (I : 0 < / s) by now apply Rinv_0_lt_compat.
      rewrite !Rabs_mult, (Rabs_pos_eq (/ s)), Rmult_assoc, <- Rabs_mult by lra.
      pose proof (x_phi (lin y x)). assert (0 < / s * / s) by now apply Rmult_lt_0_compat. nra.
  Qed.
  Lemma both_db a : deriv (fun b => both a b) (dens a).
  Proof.
    assert (I : 0 < / s) by now apply Rinv_0_lt_compat.
    assert (K : 0 < / s * / s) by now apply Rmult_lt_0_compat.
    apply (deriv_quad _ _ (/ s * / s)); [lra|]. intros b h _.
    set (err := fun a => both a (b + h) - both a b - h * (phi b * Phi (lin a b))).
    change (Rabs (err a) <= / s * / s * (h * h)).
    apply (Rle_trans _ (/ s * / s * (h * h) * Phi a)).
    2: { pose proof (Phi_range a). assert (0 <= h * h) by nra. nra. }
    apply (dom_left err Phi (fun x => dens (b + h) x - dens b x - h * (phi x * phi (lin b x) * / s)) phi).
    - unfold err. apply deriv_minus; [apply deriv_minus; apply both_da|apply deriv_scal, cond_deriv].
    - apply Phi_deriv.
    - intros x. unfold dens.
      replace (phi x * Phi (lin (b + h) x) - phi x * Phi (lin b x) - h * (phi x * phi (lin b x) * / s))
        with (phi x * (Phi (lin (b + h) x) - Phi (lin b x) - h * (phi (lin b x) * / s))) by ring.
      pose proof (phi_pos x). rewrite Rabs_mult, (Rabs_pos_eq (phi x)) by lra. rewrite (Rmult_comm _ (phi x)).
      apply Rmult_le_compat_l; [lra|apply cond_taylor].
    - unfold err. replace 0 with (0 - 0 - h * 0) by ring.
      apply to_left_minus; [apply to_left_minus; apply both_left|apply to_left_scal, cond_left].
    - apply Phi_left.
  Qed.
  Lemma rho_le1 : Rabs rho <= 1.
  Proof. apply Rabs_le. nra. Qed.
  Lemma both_bottom a : to_left (fun b => both a b) 0.
  Proof.
    assert (I : 0 < / s) by now apply Rinv_0_lt_compat.
    intros e He. destruct (Phi_left (e / 2) ltac:(lra)) as [T0 H0]. set (T := Rmin T0 a).
    pose proof (Rmin_l T0 a) as M1. pose proof (Rmin_r T0 a) as M2. fold T in M1, M2.
    specialize (H0 T M1). rewrite Rminus_0_r in H0. apply Rabs_both in H0.
    set (K := Rabs T + Rabs a).
    pose proof (to_left_affine Phi 0 (/ s) (/ s * K) I Phi_left) as L.
    destruct (L (e / 2) ltac:(lra)) as [T1 H1]. exists T1. intros b B. specialize (H1 b B). rewrite Rminus_0_r in *.
    apply Rabs_both in H1. pose proof (both_nonneg a b). rewrite Rabs_pos_eq by auto.
    assert (Q : Rabs (both a b - both T b) <= Phi (/ s * b + / s * K) * (Phi a - Phi T)).
    { apply (deriv_dom (fun a => both a b) Phi (dens b) phi _ T a (both_da b) Phi_deriv); auto.
      intros x X. pose proof (dens_range b x). rewrite Rabs_pos_eq by lra. unfold dens. rewrite Rmult_comm.
      apply Rmult_le_compat_r; [left; apply phi_pos|]. apply Phi_le. unfold lin.
      rewrite (Rmult_comm (- rho)), Rmult_assoc. apply Rplus_le_compat_l, Rmult_le_compat_l; [lra|].
      pose proof rho_le1. assert (Rabs x <= K).
      { unfold K. pose proof (Rle_abs (- T)). pose proof (Rle_abs a). rewrite Rabs_Ropp in *.
        pose proof (Rabs_pos T). pose proof (Rabs_pos a). apply Rabs_le. lra. }
      apply (Rle_trans _ (Rabs (- rho * x))); [apply Rle_abs|]. rewrite Rabs_mult, Rabs_Ropp.
      pose proof (Rabs_pos x). pose proof (Rabs_pos rho). nra. }
    apply Rabs_both in Q. pose proof (both_le T b). pose proof (Phi_range a). pose proof (Phi_range T).
    pose proof (Phi_range (/ s * b + / s * K)). pose proof (Phi_le T a M2). nra.
  Qed.
  Theorem both_sym a b : both a b = both b a.
  Proof. apply (same_left (fun a => both a b) (fun a => both b a) (dens b) 0 a); auto using both_da, both_db, both_left, both_bottom. Qed.
  (** the integrand increases with the limit *)
  Lemma both_mono a b b' : b <= b' -> both a b <= both a b'.
  Proof. apply (deriv_incr (fun b => both a b) (dens a) b b' (both_db a)). intros; apply dens_range. Qed.
End Bivar.

(** reflection *)
Lemma both_reflect rho s a b : 0 < s -> s * s = 1 - rho * rho -> Phi a - both rho s a b = both (- rho) s a (- b).
Proof.
  intros S0 SS. apply (same_left (fun a => Phi a - both rho s a b) (fun a => both (- rho) s a (- b)) (dens (- rho) s (- b)) 0).
  - eapply deriv_ext; [apply (deriv_minus _ _ _ _ Phi_deriv (both_da rho s b))|].
    intros x. cbn beta. unfold dens.
    replace (/ s * - b + - - rho * / s * x) with (- (/ s * b + - rho * / s * x)) by ring. rewrite Phi_sym. ring.
  - apply both_da.
  - replace 0 with (0 - 0) by ring. apply to_left_minus; [apply Phi_left|apply both_left].
  - apply both_left.
Qed.
Lemma both_right rho s b : 0 < s -> s * s = 1 - rho * rho -> to_right (fun a => both rho s a b) (Phi b).
Proof.
  intros S0 SS.
  assert (SS' : s * s = 1 - (- rho) * (- rho)) by lra.
  pose proof (to_left_opp _ _ (both_bottom (- rho) s S0 SS' b)) as A. cbn beta in A.
  pose proof (to_right_minus _ _ _ _ (to_right_const (Phi b)) A) as B. rewrite Rminus_0_r in B.
  eapply to_right_ext; [exact B|]. intros x. cbn beta. rewrite <- both_reflect by auto. rewrite (both_sym rho s S0 SS x b). ring.
Qed.
Lemma both_zero a b : both 0 1 a b = Phi a * Phi b.
Proof.
  apply (same_left (fun a => both 0 1 a b) (fun a => Phi a * Phi b) (dens 0 1 b) 0).
  - apply both_da.
  - eapply deriv_ext; [apply (deriv_mult Phi (fun _ => Phi b) phi (fun _ => 0) Phi_deriv (deriv_const _))|].
    intros x. cbn beta. unfold dens. replace (/ 1 * b + - 0 * / 1 * x) with b by (field; lra). ring.
  - apply both_left.
  - eapply to_left_ext; [replace 0 with (Phi b * 0) by ring; apply (to_left_scal (Phi b)), Phi_left|intros; cbn beta; ring].
Qed.
