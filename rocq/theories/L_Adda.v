(** L_Adda: the Adda-Cooper approximation in terms of the bivariate normal distribution. *)
From Coq Require Import Reals Lra Lia Psatz List ZArith.
From Verif Require Import Base Calc S_Normal L_Normal L_Bivar S_Adda M_Adda.
Import ListNotations.
Local Open Scope R_scope.

(** ** integrals *)
Lemma tends_unique F a l l' : tends F a l -> tends F a l' -> l = l'.
Proof. destruct a; cbn; [apply to_left_unique|congruence|apply to_right_unique]. Qed.
Lemma tends_minus F G a l m : tends F a l -> tends G a m -> tends (fun x => F x - G x) a (l - m).
Proof. destruct a; cbn; [apply to_left_minus|congruence|apply to_right_minus]. Qed.
Lemma tends_scal c F a l : tends F a l -> tends (fun x => c * F x) a (c * l).
Proof. destruct a; cbn; [apply to_left_scal|congruence|apply to_right_scal]. Qed.
Lemma tends_const c a : tends (fun _ => c) a c.
Proof. destruct a; cbn; [apply to_left_const|reflexivity|apply to_right_const]. Qed.
Lemma tends_ext F G a l : tends F a l -> (forall x, F x = G x) -> tends G a l.
Proof. intros H E. destruct a; cbn in *; [now apply (to_left_ext F)|now rewrite <- E|now apply (to_right_ext F)]. Qed.
Lemma integral_unique f a b v v' : integral f a b v -> integral f a b v' -> v = v'.
Proof.
  intros (F & la & lb & D & A & B & ->) (G & ka & kb & E & A' & B' & ->).
  assert (Q : forall x, F x - G x = F 0 - G 0).
  { intros x. pose proof (deriv_same F G f 0 x D E). lra. }
  pose proof (tends_minus _ _ _ _ _ A A') as PA. pose proof (tends_minus _ _ _ _ _ B B') as PB.
  pose proof (tends_unique _ _ _ _ PA (tends_ext _ _ _ _ (tends_const (F 0 - G 0) a) (fun x => eq_sym (Q x)))).
  pose proof (tends_unique _ _ _ _ PB (tends_ext _ _ _ _ (tends_const (F 0 - G 0) b) (fun x => eq_sym (Q x)))). lra.
Qed.
Lemma integral_ext f g a b v : (forall x, f x = g x) -> integral f a b v -> integral g a b v.
Proof. intros E (F & la & lb & D & H). exists F, la, lb. split; auto. now apply (deriv_ext F f). Qed.
(** between finite ends the integral is Riemann's *)
Lemma integral_riemann f a b v (C : continuity f) (L : a <= b) (pr : Riemann_integrable f a b) :
  integral f (Fin a) (Fin b) v <-> v = RiemannInt pr.
Proof.
  assert (K : forall F, deriv F f -> F b - F a = RiemannInt pr).
  { intros F D. set (g := primitive L (FTC_P1 L (fun x _ => C x))).
    assert (E : F a - g a = F b - g b).
    { apply (const_on (fun x => F x - g x) a b L). intros x X. replace 0 with (f x - f x) by ring.
      apply derivable_pt_lim_minus; [apply D|]. apply (RiemannInt_P28 L (fun x _ => C x)). exact X. }
    assert (GA : g a = 0).
    { unfold g, primitive. destruct (Rle_dec a a) as [r|n]; [|exfalso; apply n; lra]. destruct (Rle_dec a b) as [r0|n]; [|exfalso; now apply n]. apply RiemannInt_P9. }
    assert (GB : g b = RiemannInt pr).
    { unfold g, primitive. destruct (Rle_dec a b) as [r|n]; [|exfalso; now apply n]. destruct (Rle_dec b b) as [r0|n]; [|exfalso; apply n; lra]. apply RiemannInt_P5. }
    lra. }
  split.
  - intros (F & la & lb & D & A & B & ->). cbn in A, B. subst. now apply K.
  - intros ->. exists (prim f C), (prim f C a), (prim f C b). split; [apply prim_deriv|]. split; [reflexivity|]. split; [reflexivity|].
    symmetry. apply K, prim_deriv.
Qed.

(** ** comparison between ends *)
Definition inside (a b : ext) (x : R) : Prop :=
  match a with MInf => True | Fin u => u <= x | PInf => False end /\ match b with MInf => False | Fin u => x <= u | PInf => True end.
Definition ext_lt (a b : ext) : Prop :=
  match a, b with
  | MInf, Fin _ | MInf, PInf | Fin _, PInf => True
  | Fin x, Fin y => x < y
  | _, _ => False
  end.
Lemma to_right_ge F l k : to_right F l -> (exists T, forall x, T <= x -> k <= F x) -> k <= l.
Proof.
  intros A [T0 H]. destruct (Rle_dec k l) as [L|L]; auto. exfalso.
  destruct (A ((k - l) / 2) ltac:(lra)) as [T1 H1]. pose proof (Rmax_l T0 T1). pose proof (Rmax_r T0 T1).
  specialize (H (Rmax T0 T1) ltac:(lra)). specialize (H1 (Rmax T0 T1) ltac:(lra)). apply Rabs_both in H1. lra.
Qed.
Lemma ends_left F f a b la x : deriv F f -> (forall y, inside a b y -> 0 <= f y) -> tends F a la -> inside a b x -> la <= F x.
Proof.
  intros D P A [I J]. destruct a as [|u|]; cbn in *; [| |easy].
  - apply (to_left_le F la _ A). exists x. intros y Y. apply (deriv_incr F f); auto. intros z Z. apply P. split; [cbn; auto|].
    destruct b; cbn in *; auto. lra.
  - subst la. apply (deriv_incr F f); auto. intros z Z. apply P. split; cbn; [lra|]. destruct b; cbn in *; auto. lra.
Qed.
Lemma ends_right F f a b lb x : deriv F f -> (forall y, inside a b y -> 0 <= f y) -> tends F b lb -> inside a b x -> F x <= lb.
Proof.
  intros D P A [I J]. destruct b as [|u|]; cbn in *; [easy| |].
  - subst lb. apply (deriv_incr F f); auto. intros z Z. apply P. split; cbn; [|lra]. destruct a; cbn in *; auto. lra.
  - apply (to_right_ge F lb _ A). exists x. intros y Y. apply (deriv_incr F f); auto. intros z Z. apply P. split; [|cbn; auto].
    destruct a; cbn in *; auto. lra.
Qed.
Lemma ext_lt_inside a b : ext_lt a b -> exists x y, x < y /\ inside a b x /\ inside a b y.
Proof.
  destruct a as [|u|], b as [|w|]; cbn; try easy; intros H.
  - exists (w - 1), w. unfold inside; repeat split; cbn; lra.
  - exists 0, 1. unfold inside; repeat split; cbn; lra.
  - exists u, w. unfold inside; repeat split; cbn; lra.
  - exists u, (u + 1). unfold inside; repeat split; cbn; lra.
Qed.
Lemma ends_le F f a b la lb : deriv F f -> ext_lt a b -> (forall y, inside a b y -> 0 <= f y) -> tends F a la -> tends F b lb -> la <= lb.
Proof.
  intros D L P A B. destruct (ext_lt_inside a b L) as (x & _ & _ & I & _).
  pose proof (ends_left F f a b la x D P A I). pose proof (ends_right F f a b lb x D P B I). lra.
Qed.
Lemma ends_lt F f a b la lb : deriv F f -> ext_lt a b -> (forall y, 0 < f y) -> tends F a la -> tends F b lb -> la < lb.
Proof.
  intros D L P A B. destruct (ext_lt_inside a b L) as (x & y & X & I & J).
  assert (P' : forall y, inside a b y -> 0 <= f y) by (intros; left; apply P).
  pose proof (ends_left F f a b la x D P' A I). pose proof (ends_right F f a b lb y D P' B J).
  destruct (deriv_mvt F f x y D X) as (c & E & _). pose proof (P c). nra.
Qed.

(** ** the bivariate distribution with infinite ends *)
Definition Phix (e : ext) : R := match e with MInf => 0 | Fin x => Phi x | PInf => 1 end.
Lemma Phix_tends e : tends Phi e (Phix e).
Proof. destruct e; cbn; [apply Phi_left|reflexivity|apply Phi_right]. Qed.
Lemma Phix_lt a b : ext_lt a b -> Phix a < Phix b.
Proof. intros L. apply (ends_lt Phi phi a b); auto using Phi_deriv, phi_pos, Phix_tends. Qed.

Lemma lt_Phix a b : Phix a < Phix b -> ext_lt a b.
Proof.
  destruct a as [|x|], b as [|y|]; cbn; intros H; auto; try lra; try (pose proof (Phi_range x)); try (pose proof (Phi_range y)); try lra.
  apply Rnot_le_lt. intros L. pose proof (Phi_le y x L). lra.
Qed.

Section Norm.
  Variables rho s : R.
  Hypotheses (S0 : 0 < s) (SS : s * s = 1 - rho * rho).
  Definition condx (b : ext) (u : R) : R := match b with MInf => 0 | PInf => 1 | Fin y => Phi (/ s * y + (- rho * / s) * u) end.
  Definition colF (b : ext) (u : R) : R := match b with MInf => 0 | PInf => Phi u | Fin y => both rho s u y end.
  Definition bothx (a b : ext) : R :=
    match a, b with
    | MInf, _ => 0
    | _, MInf => 0
    | PInf, b => Phix b
    | a, PInf => Phix a
    | Fin x, Fin y => both rho s x y
    end.
  Lemma bothx_sym a b : bothx a b = bothx b a.
  Proof. destruct a, b; cbn; auto. now apply both_sym. Qed.
  Lemma colF_deriv b : deriv (colF b) (fun u => phi u * condx b u).
  Proof.
    destruct b as [|y|]; cbn.
    - eapply deriv_ext; [apply deriv_const|intros; cbn beta; ring].
    - exact (both_da rho s y).
    - eapply deriv_ext; [apply Phi_deriv|intros; cbn beta; ring].
  Qed.
  Lemma colF_tends a b : tends (colF b) a (bothx a b).
  Proof.
    destruct b as [|y|].
    - replace (bothx a MInf) with 0 by (destruct a; reflexivity). apply tends_const.
    - destruct a; cbn; [apply both_left|reflexivity|now apply both_right].
    - replace (bothx a PInf) with (Phix a) by (destruct a; reflexivity). apply Phix_tends.
  Qed.
  Lemma condx_lt b b' u : ext_lt b b' -> condx b u < condx b' u.
  Proof.
    assert (I : 0 < / s) by now apply Rinv_0_lt_compat.
    destruct b, b'; cbn; try easy; intros H; try apply Phi_range; [lra|]. apply Phi_incr. nra.
  Qed.
  (** probability of the cell between a and a' times the one between b and b' *)
  Definition box (a a' b b' : ext) : R := (bothx a' b' - bothx a' b) - (bothx a b' - bothx a b).
  Lemma box_sym a a' b b' : box a a' b b' = box b b' a a'.
  Proof. unfold box. rewrite (bothx_sym a' b'), (bothx_sym a' b), (bothx_sym a b'), (bothx_sym a b). ring. Qed.
  Lemma box_pos a a' b b' : ext_lt a a' -> ext_lt b b' -> 0 < box a a' b b'.
  Proof.
    intros A B. unfold box.
    assert (bothx a b' - bothx a b < bothx a' b' - bothx a' b); [|lra].
    apply (ends_lt (fun u => colF b' u - colF b u) (fun u => phi u * condx b' u - phi u * condx b u) a a'); auto.
    - apply deriv_minus; apply colF_deriv.
    - intros y. pose proof (phi_pos y). pose proof (condx_lt b b' y B). nra.
    - apply tends_minus; apply colF_tends.
    - apply tends_minus; apply colF_tends.
  Qed.
  Lemma box_row a a' : box a a' MInf PInf = Phix a' - Phix a.
  Proof. unfold box. destruct a, a'; cbn; ring. Qed.
  (** with positive correlation lower cells go lower *)
  Lemma condx_anti b u v : 0 <= rho -> u <= v -> condx b v <= condx b u.
  Proof.
    intros R L. assert (I : 0 < / s) by now apply Rinv_0_lt_compat. destruct b; cbn; try lra. apply Phi_le.
    assert (0 <= rho * / s * (v - u)) by (apply Rmult_le_pos; nra). lra.
  Qed.
  Lemma cell_order a c d b : 0 <= rho -> ext_lt a (Fin c) -> ext_lt (Fin c) d ->
    Phix d - Phix (Fin c) = Phix (Fin c) - Phix a ->
    bothx d b - bothx (Fin c) b <= bothx (Fin c) b - bothx a b.
  Proof.
    intros R A D E. set (k := condx b c).
    assert (L1 : k * Phix d - bothx d b >= k * Phix (Fin c) - bothx (Fin c) b).
    { apply Rle_ge, (ends_le (fun u => k * Phi u - colF b u) (fun u => k * phi u - phi u * condx b u) (Fin c) d); auto.
      - apply deriv_minus; [apply deriv_scal, Phi_deriv|apply colF_deriv].
      - intros y [Y _]. cbn in Y. pose proof (phi_pos y). pose proof (condx_anti b c y R Y). unfold k. nra.
      - apply tends_minus; [apply tends_scal, Phix_tends|apply colF_tends].
      - apply tends_minus; [apply tends_scal, Phix_tends|apply colF_tends]. }
    assert (L2 : bothx a b - k * Phix a <= bothx (Fin c) b - k * Phix (Fin c)).
    { apply (ends_le (fun u => colF b u - k * Phi u) (fun u => phi u * condx b u - k * phi u) a (Fin c)); auto.
      - apply deriv_minus; [apply colF_deriv|apply deriv_scal, Phi_deriv].
      - intros y [_ Y]. cbn in Y. pose proof (phi_pos y). pose proof (condx_anti b y c R Y). unfold k. nra.
      - apply tends_minus; [apply colF_tends|apply tends_scal, Phix_tends].
      - apply tends_minus; [apply colF_tends|apply tends_scal, Phix_tends]. }
    nra.
  Qed.
End Norm.

Definition neg (e : ext) : ext := match e with MInf => PInf | Fin x => Fin (- x) | PInf => MInf end.
Lemma bothx_neg rho s a b : 0 < s -> s * s = 1 - rho * rho -> bothx (- rho) s a (neg b) = Phix a - bothx rho s a b.
Proof.
  intros S0 SS. destruct a, b; cbn; try ring; [symmetry; now apply both_reflect|apply Phi_sym].
Qed.
Lemma box_neg rho s a a' b b' : 0 < s -> s * s = 1 - rho * rho -> box (- rho) s a a' (neg b') (neg b) = box rho s a a' b b'.
Proof. intros S0 SS. unfold box. rewrite !bothx_neg by auto. ring. Qed.

(** ** the library's integrals *)
Section Call.
  Variables (cdf ppf : R -> R) (iq : nat -> nat -> R) (size : nat) (alpha sigma rho : R).
  Hypotheses (N : (2 <= size)%nat) (SG : 0 < sigma) (R1 : 0 < 1 - rho * rho).
  Hypotheses (CDF : normal_cdf cdf) (PPF : normal_quantile cdf ppf).
  Let s := sqrt (1 - rho * rho).
  Let zs := ac_sigma sigma rho.
  Let b := ac_ppf ppf size.
  Let aff e := match e with Fin x => Fin (zs * x + alpha) | e => e end.
  Lemma s_pos : 0 < s. Proof. now apply sqrt_lt_R0. Qed.
  Lemma s_sq : s * s = 1 - rho * rho. Proof. apply sqrt_sqrt. lra. Qed.
  Lemma zs_pos : 0 < zs. Proof. apply Rdiv_lt_0_compat; [auto|apply s_pos]. Qed.
  Lemma z_aff k : ac_z ppf size alpha sigma rho k = aff (b k).
  Proof. unfold ac_z, aff, b, zs. destruct (ac_ppf ppf size k); reflexivity. Qed.
  Lemma cond_at e u x : x = zs * u + alpha ->
    ac_cdf cdf alpha sigma rho (aff e) x = condx rho s e u.
  Proof.
    intros ->. destruct e as [|y|]; cbn; auto. rewrite (normal_unique cdf CDF). f_equal.
    pose proof s_pos. unfold zs, ac_sigma. fold s. field. lra.
  Qed.
  Lemma tends_aff F e l : tends F e l ->
    tends (fun x => F (/ zs * x + - (alpha * / zs))) (aff e) l.
  Proof.
    pose proof zs_pos as Z. assert (I : 0 < / zs) by now apply Rinv_0_lt_compat.
    destruct e as [|y|]; cbn; [now apply to_left_affine| |now apply to_right_affine].
    intros <-. f_equal. field. lra.
  Qed.
  Lemma call_value i j : integral (ac_integrand cdf alpha sigma rho (ac_z ppf size alpha sigma rho j) (ac_z ppf size alpha sigma rho (S j)))
    (ac_z ppf size alpha sigma rho i) (ac_z ppf size alpha sigma rho (S i))
    (zs * sqrt (2 * PI) * box rho s (b i) (b (S i)) (b j) (b (S j))).
  Proof.
    pose proof zs_pos as Z. pose proof s_pos as S0. pose proof s_sq as SS. pose proof sqrt_2pi as SP.
    set (k := zs * sqrt (2 * PI)).
    set (G := fun u => k * (colF rho s (b (S j)) u - colF rho s (b j) u)).
    set (v a := bothx rho s a (b (S j)) - bothx rho s a (b j)).
    exists (fun x => G (/ zs * x + - (alpha * / zs))), (k * v (b i)), (k * v (b (S i))).
    split; [|split; [|split]].
    - eapply deriv_ext.
      + apply (deriv_comp (fun x => / zs * x + - (alpha * / zs)) G (fun _ => / zs)
          (fun u => k * (phi u * condx rho s (b (S j)) u - phi u * condx rho s (b j) u))); [apply deriv_lin|].
        apply deriv_scal, deriv_minus; now apply colF_deriv.
      + intros x. cbn beta. unfold ac_integrand. set (u := / zs * x + - (alpha * / zs)).
        assert (X : x = zs * u + alpha) by (unfold u; field; lra).
        rewrite !z_aff, !(cond_at _ u x X). unfold phi, k.
        replace (- ((x - alpha) * (x - alpha)) / (2 * (ac_sigma sigma rho * ac_sigma sigma rho))) with (- (u * u) / 2).
        2: { rewrite X. fold zs. field. lra. }
        field. lra.
    - rewrite z_aff. apply tends_aff. unfold G, v. apply tends_scal, tends_minus; now apply colF_tends.
    - rewrite z_aff. apply tends_aff. unfold G, v. apply tends_scal, tends_minus; now apply colF_tends.
    - unfold box, v, k. ring.
  Qed.
  Lemma factor : ac_factor size sigma rho * (zs * sqrt (2 * PI)) = INR size.
  Proof.
    pose proof zs_pos as Z. pose proof sqrt_2pi as SP. unfold ac_factor. fold zs.
    rewrite sqrt_mult, sqrt_square; [|lra|pose proof PI_RGT_0; lra|nra]. field. lra.
  Qed.
  Definition level_entry (i j : nat) : R := INR size * box rho s (b i) (b (S i)) (b j) (b (S j)).
  Lemma entry_value i j : quad_exact cdf ppf iq size alpha sigma rho -> (i < size)%nat -> (j < size)%nat ->
    ac_entry iq size sigma rho i j = level_entry i j.
  Proof.
    intros Q I J. specialize (Q i j I J). cbn in Q.
    pose proof (integral_unique _ _ _ _ _ Q (call_value i j)) as E.
    unfold ac_entry, level_entry. rewrite E, <- factor. ring.
  Qed.
  Lemma quad_exists : quad_exact cdf ppf (fun i j => zs * sqrt (2 * PI) * box rho s (b i) (b (S i)) (b j) (b (S j))) size alpha sigma rho.
  Proof. intros i j _ _. apply call_value. Qed.

  (** the levels *)
  Lemma size_pos : 0 < INR size. Proof. apply (lt_INR 0). lia. Qed.
  Lemma level k : (k <= size)%nat -> Phix (b k) = INR k / INR size.
  Proof.
    intros K. pose proof size_pos as P. unfold b, ac_ppf.
    destruct (Nat.eqb_spec k 0) as [->|K0]; [cbn; unfold Rdiv; ring|].
    destruct (Nat.eqb_spec k size) as [->|K1]; [cbn; field; lra|].
    cbn. rewrite <- (normal_unique cdf CDF). apply PPF.
    assert (0 < INR k) by (apply (lt_INR 0); lia). assert (INR k < INR size) by (apply lt_INR; lia).
    split; [apply Rdiv_lt_0_compat; lra|]. apply (Rmult_lt_reg_r (INR size)); auto. unfold Rdiv. rewrite Rmult_assoc, Rinv_l; lra.
  Qed.
  Lemma level_lt k : (k < size)%nat -> ext_lt (b k) (b (S k)).
  Proof.
    intros K. pose proof (level k ltac:(lia)) as L. pose proof (level (S k) ltac:(lia)) as L'.
    assert (Q : Phix (b k) < Phix (b (S k))).
    { rewrite L, L', S_INR. pose proof size_pos. unfold Rdiv. apply Rmult_lt_compat_r; [now apply Rinv_0_lt_compat|lra]. }
    now apply lt_Phix.
  Qed.
  Lemma level_mid k : (0 < k < size)%nat -> exists c, b k = Fin c.
  Proof.
    intros K. unfold b, ac_ppf. destruct (Nat.eqb_spec k 0); [lia|]. destruct (Nat.eqb_spec k size); [lia|]. eauto.
  Qed.
  Lemma level_neg k : (k <= size)%nat -> b (size - k) = neg (b k).
  Proof.
    intros K. pose proof (level k K) as L. pose proof (level (size - k) ltac:(lia)) as L'.
    rewrite minus_INR in L' by lia. pose proof size_pos as P.
    unfold b, ac_ppf in *.
    destruct (Nat.eqb_spec k 0) as [->|]; [rewrite Nat.sub_0_r; destruct (Nat.eqb_spec size 0); [lia|]; now rewrite Nat.eqb_refl|].
    destruct (Nat.eqb_spec k size) as [->|]; [now rewrite Nat.sub_diag|].
    destruct (Nat.eqb_spec (size - k) 0); [lia|]. destruct (Nat.eqb_spec (size - k) size); [lia|].
    cbn in *. f_equal. set (x := ppf (INR k / INR size)) in *. set (y := ppf (INR (size - k) / INR size)) in *.
    assert (E : Phi y = Phi (- x)) by (rewrite Phi_sym, L, L'; field; lra).
    destruct (Rtotal_order y (- x)) as [H|[H|H]]; auto; apply Phi_incr in H; lra.
  Qed.
End Call.
