(** Calc: calculus on the whole line with the standard library's derivative:
    primitives of continuous functions, comparison by derivatives, limits at both ends. *)
From Coq Require Import Reals Lra Lia Psatz.
Local Open Scope R_scope.

Lemma Rabs_both a b : Rabs a <= b -> - b <= a <= b.
Proof. intros H. pose proof (Rle_abs a). pose proof (Rle_abs (- a)). rewrite Rabs_Ropp in *. lra. Qed.

Definition deriv (F f : R -> R) : Prop := forall x, derivable_pt_lim F x (f x).

(** limits at minus and plus infinity *)
Definition to_left (F : R -> R) (l : R) : Prop := forall e, 0 < e -> exists T, forall x, x <= T -> Rabs (F x - l) <= e.
Definition to_right (F : R -> R) (l : R) : Prop := forall e, 0 < e -> exists T, forall x, T <= x -> Rabs (F x - l) <= e.

Lemma deriv_ext F f g : deriv F f -> (forall x, f x = g x) -> deriv F g.
Proof. intros D E x. rewrite <- E. apply D. Qed.
Lemma deriv_fun F G f : deriv F f -> (forall x, F x = G x) -> deriv G f.
Proof. intros D E x. intros e He. destruct (D x e He) as [d Hd]. exists d. intros h H0 H1. rewrite <- !E. now apply Hd. Qed.
Lemma deriv_plus F G f g : deriv F f -> deriv G g -> deriv (fun x => F x + G x) (fun x => f x + g x).
Proof. intros A B x. apply (derivable_pt_lim_plus F G x); auto. Qed.
Lemma deriv_minus F G f g : deriv F f -> deriv G g -> deriv (fun x => F x - G x) (fun x => f x - g x).
Proof. intros A B x. apply (derivable_pt_lim_minus F G x); auto. Qed.
Lemma deriv_scal c F f : deriv F f -> deriv (fun x => c * F x) (fun x => c * f x).
Proof. intros A x. apply (derivable_pt_lim_scal F c x); auto. Qed.
Lemma deriv_mult F G f g : deriv F f -> deriv G g -> deriv (fun x => F x * G x) (fun x => f x * G x + F x * g x).
Proof. intros A B x. apply (derivable_pt_lim_mult F G x); auto. Qed.
Lemma deriv_const c : deriv (fun _ => c) (fun _ => 0).
Proof. intros x. apply derivable_pt_lim_const. Qed.
Lemma deriv_id : deriv (fun x => x) (fun _ => 1).
Proof. intros x. apply derivable_pt_lim_id. Qed.
Lemma deriv_comp F G f g : deriv F f -> deriv G g -> deriv (fun x => G (F x)) (fun x => g (F x) * f x).
Proof. intros A B x. apply (derivable_pt_lim_comp F G x); auto. Qed.
Lemma deriv_lin a b : deriv (fun x => a * x + b) (fun _ => a).
Proof.
  eapply deriv_ext; [apply deriv_plus; [apply (deriv_scal a (fun x => x)), deriv_id|apply deriv_const]|].
  intros x; cbn beta; ring.
Qed.
Lemma deriv_exp : deriv exp exp.
Proof. intros x. apply derivable_pt_lim_exp. Qed.
Lemma deriv_cont F f : deriv F f -> continuity F.
Proof. intros D x. apply derivable_continuous_pt. exists (f x). apply D. Qed.

(** ** mean values *)
Lemma deriv_mvt F f a b : deriv F f -> a < b -> exists c, F b - F a = f c * (b - a) /\ a < c < b.
Proof. intros D L. apply (MVT_cor2 F f a b L). intros; apply D. Qed.
Lemma deriv_incr F f a b : deriv F f -> (forall x, a <= x <= b -> 0 <= f x) -> a <= b -> F a <= F b.
Proof.
  intros D P [L|<-]; [|lra]. destruct (deriv_mvt F f a b D L) as (c & E & C).
  assert (0 <= f c * (b - a)) by (apply Rmult_le_pos; [apply P; lra|lra]). lra.
Qed.
Lemma deriv_zero F a b : deriv F (fun _ => 0) -> F a = F b.
Proof.
  intros D. destruct (Rle_dec a b) as [L|L].
  - apply Rle_antisym; [apply (deriv_incr F (fun _ => 0)); auto; intros; lra|].
    assert (- F a <= - F b).
    { apply (deriv_incr (fun x => - F x) (fun _ => 0) a b); auto; [|intros; lra].
      eapply deriv_fun; [eapply deriv_ext; [apply (deriv_scal (-1)), D|intros; cbn beta; ring]|intros; cbn beta; ring]. }
    lra.
  - assert (b <= a) by lra. apply Rle_antisym; [|apply (deriv_incr F (fun _ => 0)); auto; intros; lra].
    assert (- F b <= - F a).
    { apply (deriv_incr (fun x => - F x) (fun _ => 0) b a); auto; [|intros; lra].
      eapply deriv_fun; [eapply deriv_ext; [apply (deriv_scal (-1)), D|intros; cbn beta; ring]|intros; cbn beta; ring]. }
    lra.
Qed.
Lemma deriv_same F G f a b : deriv F f -> deriv G f -> F b - F a = G b - G a.
Proof.
  intros A B. assert (E : F a - G a = F b - G b); [|lra].
  apply (deriv_zero (fun x => F x - G x)). eapply deriv_ext; [apply (deriv_minus F G f f); auto|intros; cbn beta; ring].
Qed.
(** |f| bounded by a multiple of g *)
Lemma deriv_dom F G f g k a b : deriv F f -> deriv G g -> (forall x, a <= x <= b -> Rabs (f x) <= k * g x) -> a <= b ->
  Rabs (F b - F a) <= k * (G b - G a).
Proof.
  intros A B H L. apply Rabs_le. split.
  - assert (k * G a + F a <= k * G b + F b); [|lra].
    apply (deriv_incr (fun x => k * G x + F x) (fun x => k * g x + f x)); auto.
    + apply deriv_plus; auto. now apply deriv_scal.
    + intros x X. specialize (H x X). apply Rabs_both in H. lra.
  - assert (k * G a - F a <= k * G b - F b); [|lra].
    apply (deriv_incr (fun x => k * G x - F x) (fun x => k * g x - f x)); auto.
    + apply deriv_minus; auto. now apply deriv_scal.
    + intros x X. specialize (H x X). apply Rabs_both in H. lra.
Qed.
(** first-order expansion with a bounded second derivative *)
Lemma taylor2 F f f2 k x h : deriv F f -> deriv f f2 -> (forall y, Rabs (f2 y) <= k) ->
  Rabs (F (x + h) - F x - h * f x) <= k * (h * h).
Proof.
  intros A B K.
  assert (K0 : 0 <= k) by (specialize (K 0); pose proof (Rabs_pos (f2 0)); lra).
  assert (Lip : forall a b, Rabs (f b - f a) <= k * Rabs (b - a)).
  { assert (L1 : forall a b, a <= b -> Rabs (f b - f a) <= k * (b - a)).
    { intros a b L. apply (deriv_dom f (fun x => x) f2 (fun _ => 1) k a b); auto using deriv_id.
      intros y _. specialize (K y). lra. }
    intros a b. destruct (Rle_dec a b) as [L|L].
    - rewrite (Rabs_pos_eq (b - a)) by lra. now apply L1.
    - rewrite (Rabs_minus_sym (f b)), (Rabs_minus_sym b), (Rabs_pos_eq (a - b)) by lra. apply L1; lra. }
  destruct (Rtotal_order h 0) as [N|[->|P]].
  - destruct (deriv_mvt F f (x + h) x A ltac:(lra)) as (c & E & C).
    replace (F (x + h) - F x - h * f x) with (h * (f c - f x)) by lra.
    rewrite Rabs_mult. replace (k * (h * h)) with (Rabs h * (k * Rabs h)).
    2: { rewrite (Rabs_left h) by lra. ring. }
    apply Rmult_le_compat_l; [apply Rabs_pos|]. eapply Rle_trans; [apply Lip|].
    apply Rmult_le_compat_l; [lra|]. rewrite (Rabs_left h), Rabs_left by lra. lra.
  - rewrite Rplus_0_r. replace (F x - F x - 0 * f x) with 0 by ring. rewrite Rabs_R0. lra.
  - destruct (deriv_mvt F f x (x + h) A ltac:(lra)) as (c & E & C).
    replace (F (x + h) - F x - h * f x) with (h * (f c - f x)) by lra.
    rewrite Rabs_mult. replace (k * (h * h)) with (Rabs h * (k * Rabs h)).
    2: { rewrite (Rabs_pos_eq h) by lra. ring. }
    apply Rmult_le_compat_l; [apply Rabs_pos|]. eapply Rle_trans; [apply Lip|].
    apply Rmult_le_compat_l; [lra|]. rewrite !Rabs_pos_eq by lra. lra.
Qed.
(** a function with a quadratic expansion has the derivative *)
Lemma deriv_quad F f k : 0 <= k -> (forall x h, Rabs h <= 1 -> Rabs (F (x + h) - F x - h * f x) <= k * (h * h)) -> deriv F f.
Proof.
  intros K0 Q x e He.
  assert (K1 : 0 < / (k + 1)) by (apply Rinv_0_lt_compat; lra).
  assert (D0 : 0 < Rmin 1 (e * / (k + 1))) by (apply Rmin_pos; [lra|now apply Rmult_lt_0_compat]).
  exists (mkposreal _ D0). intros h H0 H1. cbn in H1.
  pose proof (Rmin_l 1 (e * / (k + 1))). pose proof (Rmin_r 1 (e * / (k + 1))).
  specialize (Q x h ltac:(lra)).
  replace ((F (x + h) - F x) / h - f x) with ((F (x + h) - F x - h * f x) * / h) by (field; auto).
  rewrite Rabs_mult, Rabs_inv.
  assert (A0 : 0 < Rabs h) by now apply Rabs_pos_lt.
  apply (Rle_lt_trans _ (k * (h * h) * / Rabs h)).
  { apply Rmult_le_compat_r; [|auto]. left. now apply Rinv_0_lt_compat. }
  replace (h * h) with (Rabs h * Rabs h) by (rewrite <- Rabs_mult; apply Rabs_pos_eq; nra).
  replace (k * (Rabs h * Rabs h) * / Rabs h) with (k * Rabs h) by (field; lra).
  assert (Rabs h * (k + 1) < e).
  { apply (Rmult_lt_reg_r (/ (k + 1))); auto. rewrite Rmult_assoc, Rinv_r, Rmult_1_r by lra. lra. }
  nra.
Qed.

(** ** primitives *)
Section Prim.
  Variable f : R -> R.
  Hypothesis C : continuity f.
  Lemma prim_le T : - (Rabs T + 1) <= Rabs T + 1.
  Proof. pose proof (Rabs_pos T); lra. Qed.
  Definition prim_on (T : R) : R -> R :=
    let g := primitive (prim_le T) (FTC_P1 (prim_le T) (fun x _ => C x)) in fun x => g x - g 0.
  Lemma prim_on_deriv T x : Rabs x <= Rabs T + 1 -> derivable_pt_lim (prim_on T) x (f x).
  Proof.
    intros H. unfold prim_on. apply Rabs_both in H.
    rewrite <- (Rminus_0_r (f x)). apply derivable_pt_lim_minus.
    - apply (RiemannInt_P28 (prim_le T) (fun x _ => C x)). lra.
    - apply derivable_pt_lim_const.
  Qed.
  Lemma prim_on_0 T : prim_on T 0 = 0.
  Proof. unfold prim_on. ring. Qed.
  Lemma const_on G a b : a <= b -> (forall x, a <= x <= b -> derivable_pt_lim G x 0) -> G a = G b.
  Proof.
    intros [L|<-] D; [|reflexivity]. destruct (MVT_cor2 G (fun _ => 0) a b L) as (c & E & _); [intros; now apply D|]. lra.
  Qed.
  Lemma prim_on_agree T U x : Rabs x <= Rabs T + 1 -> Rabs x <= Rabs U + 1 -> prim_on T x = prim_on U x.
  Proof.
    intros A B. assert (D : forall y, Rabs y <= Rabs x -> derivable_pt_lim (fun y => prim_on T y - prim_on U y) y 0).
    { intros y Y. replace 0 with (f y - f y) by ring. apply derivable_pt_lim_minus; apply prim_on_deriv; lra. }
    assert (E : prim_on T x - prim_on U x = prim_on T 0 - prim_on U 0); [|rewrite !prim_on_0 in E; lra].
    destruct (Rle_dec 0 x) as [X|X].
    - symmetry. apply (const_on (fun y => prim_on T y - prim_on U y) 0 x X). intros y Y. apply D. rewrite !Rabs_pos_eq; lra.
    - apply (const_on (fun y => prim_on T y - prim_on U y) x 0); [lra|]. intros y Y. apply D.
      rewrite (Rabs_left x) by lra. apply Rabs_le. lra.
  Qed.
  Definition prim (x : R) : R := prim_on x x.
  Lemma prim_0 : prim 0 = 0.
  Proof. apply prim_on_0. Qed.
  Lemma prim_deriv : deriv prim f.
  Proof.
    intros x e He. destruct (prim_on_deriv (Rabs x + 1) x ltac:(rewrite (Rabs_pos_eq (Rabs x + 1)); pose proof (Rabs_pos x); lra) e He) as [d Hd].
    assert (D0 : 0 < Rmin 1 d) by (apply Rmin_pos; [lra|apply cond_pos]).
    exists (mkposreal _ D0). intros h H0 H1. cbn in H1. pose proof (Rmin_l 1 d). pose proof (Rmin_r 1 d).
    pose proof (Rabs_pos x). pose proof (Rabs_triang x h).
    unfold prim. rewrite (prim_on_agree (x + h) (Rabs x + 1) (x + h)), (prim_on_agree x (Rabs x + 1) x);
      try (rewrite ?(Rabs_pos_eq (Rabs x + 1)) by lra; lra).
    apply Hd; auto. lra.
  Qed.
End Prim.

(** ** limits *)
Lemma to_left_unique F l l' : to_left F l -> to_left F l' -> l = l'.
Proof.
  intros A B. destruct (Req_dec l l') as [E|E]; auto. exfalso.
  assert (P : 0 < Rabs (l - l') / 4) by (apply Rmult_lt_0_compat; [apply Rabs_pos_lt; lra|lra]).
  destruct (A _ P) as [T1 H1]. destruct (B _ P) as [T2 H2]. set (x := Rmin T1 T2).
  specialize (H1 x (Rmin_l _ _)). specialize (H2 x (Rmin_r _ _)).
  pose proof (Rabs_triang (F x - l') (- (F x - l))) as T. rewrite Rabs_Ropp in T.
  replace (F x - l' + - (F x - l)) with (l - l') in T by ring. lra.
Qed.
Lemma to_left_opp F l : to_left F l -> to_right (fun x => F (- x)) l.
Proof. intros A e He. destruct (A e He) as [T H]. exists (- T). intros x X. apply H. lra. Qed.
Lemma to_right_opp F l : to_right F l -> to_left (fun x => F (- x)) l.
Proof. intros A e He. destruct (A e He) as [T H]. exists (- T). intros x X. apply H. lra. Qed.
Lemma to_left_ext F G l : to_left F l -> (forall x, F x = G x) -> to_left G l.
Proof. intros A E e He. destruct (A e He) as [T H]. exists T. intros x X. rewrite <- E. auto. Qed.
Lemma to_right_ext F G l : to_right F l -> (forall x, F x = G x) -> to_right G l.
Proof. intros A E e He. destruct (A e He) as [T H]. exists T. intros x X. rewrite <- E. auto. Qed.
Lemma to_right_unique F l l' : to_right F l -> to_right F l' -> l = l'.
Proof. intros A B. apply to_right_opp in A, B. exact (to_left_unique _ _ _ A B). Qed.
Lemma to_left_const c : to_left (fun _ => c) c.
Proof. intros e He. exists 0. intros. rewrite Rminus_eq_0, Rabs_R0. lra. Qed.
Lemma to_left_minus F G l m : to_left F l -> to_left G m -> to_left (fun x => F x - G x) (l - m).
Proof.
  intros A B e He. destruct (A (e / 2) ltac:(lra)) as [T1 H1]. destruct (B (e / 2) ltac:(lra)) as [T2 H2].
  exists (Rmin T1 T2). intros x X. pose proof (Rmin_l T1 T2). pose proof (Rmin_r T1 T2).
  specialize (H1 x ltac:(lra)). specialize (H2 x ltac:(lra)). apply Rabs_both in H1, H2. apply Rabs_le. lra.
Qed.
Lemma to_left_scal c F l : to_left F l -> to_left (fun x => c * F x) (c * l).
Proof.
  intros A e He. pose proof (Rabs_pos c) as C0.
  assert (P : 0 < / (Rabs c + 1)) by (apply Rinv_0_lt_compat; lra).
  destruct (A (e * / (Rabs c + 1))) as [T H]; [now apply Rmult_lt_0_compat|]. exists T. intros x X. specialize (H x X).
  replace (c * F x - c * l) with (c * (F x - l)) by ring. rewrite Rabs_mult.
  apply (Rle_trans _ (Rabs c * (e * / (Rabs c + 1)))); [now apply Rmult_le_compat_l|].
  apply (Rmult_le_reg_r (Rabs c + 1)); [lra|]. rewrite !Rmult_assoc, Rinv_l, Rmult_1_r by lra. nra.
Qed.
Lemma to_left_squeeze F G : (exists T, forall x, x <= T -> Rabs (F x) <= G x) -> to_left G 0 -> to_left F 0.
Proof.
  intros [T0 H] A e He. destruct (A e He) as [T1 H1]. exists (Rmin T0 T1). intros x X.
  pose proof (Rmin_l T0 T1). pose proof (Rmin_r T0 T1).
  specialize (H x ltac:(lra)). specialize (H1 x ltac:(lra)). rewrite Rminus_0_r in *. pose proof (Rle_abs (G x)). lra.
Qed.
Lemma to_left_affine F l a b : 0 < a -> to_left F l -> to_left (fun x => F (a * x + b)) l.
Proof.
  intros A0 A e He. destruct (A e He) as [T H]. exists ((T - b) / a). intros x X. apply H.
  apply (Rmult_le_compat_l a) in X; [|lra]. replace (a * ((T - b) / a)) with (T - b) in X by (field; lra). lra.
Qed.
Lemma to_right_affine F l a b : 0 < a -> to_right F l -> to_right (fun x => F (a * x + b)) l.
Proof.
  intros A0 A e He. destruct (A e He) as [T H]. exists ((T - b) / a). intros x X. apply H.
  apply (Rmult_le_compat_l a) in X; [|lra]. replace (a * ((T - b) / a)) with (T - b) in X by (field; lra). lra.
Qed.
Lemma to_right_minus F G l m : to_right F l -> to_right G m -> to_right (fun x => F x - G x) (l - m).
Proof.
  intros A B. apply to_right_opp in A, B. pose proof (to_left_opp _ _ (to_left_minus _ _ _ _ A B)) as H.
  eapply to_right_ext; [exact H|]. intros x. cbn beta. now rewrite Ropp_involutive.
Qed.
Lemma to_right_scal c F l : to_right F l -> to_right (fun x => c * F x) (c * l).
Proof.
  intros A. apply to_right_opp in A. pose proof (to_left_opp _ _ (to_left_scal c _ _ A)) as H.
  eapply to_right_ext; [exact H|]. intros x. cbn beta. now rewrite Ropp_involutive.
Qed.
Lemma to_right_const c : to_right (fun _ => c) c.
Proof. intros e He. exists 0. intros. rewrite Rminus_eq_0, Rabs_R0. lra. Qed.
Lemma to_left_le F l k : to_left F l -> (exists T, forall x, x <= T -> F x <= k) -> l <= k.
Proof.
  intros A [T0 H]. destruct (Rle_dec l k) as [L|L]; auto. exfalso.
  destruct (A ((l - k) / 2) ltac:(lra)) as [T1 H1]. pose proof (Rmin_l T0 T1). pose proof (Rmin_r T0 T1).
  specialize (H (Rmin T0 T1) ltac:(lra)). specialize (H1 (Rmin T0 T1) ltac:(lra)). apply Rabs_both in H1. lra.
Qed.
(** a bounded increasing function has a limit on the left *)
Lemma left_limit F k : (forall x y, x <= y -> F x <= F y) -> (forall x, k <= F x) -> { l | to_left F l /\ forall x, l <= F x }.
Proof.
  intros I B.
  destruct (completeness (fun y => exists x, y = - F x)) as [m [U L]].
  - exists (- k). intros y [x ->]. specialize (B x). lra.
  - exists (- F 0). now exists 0.
  - exists (- m). split.
    + intros e He. destruct (Classical_Prop.classic (exists x, - F x > m - e)) as [[T HT]|N].
      * exists T. intros x X. specialize (I x T X). assert (- F x <= m) by (apply U; now exists x). apply Rabs_le. lra.
      * exfalso. assert (m <= m - e); [|lra]. apply L. intros y [x ->].
        destruct (Rle_dec (- F x) (m - e)) as [Q|Q]; auto. exfalso. apply N. exists x. lra.
    + intros x. assert (- F x <= m) by (apply U; now exists x). lra.
Qed.
