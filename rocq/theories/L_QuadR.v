(** L_QuadR: proofs about the quadratures with irrational nodes. *)
From Coq Require Import Reals ZArith Lra Lia Bool.
From Verif Require Import M_QuadR.
Close Scope R_scope.
Open Scope nat_scope.
Open Scope res_scope.

Lemma tot_ext n f g : (forall i, i < n -> f i = g i) -> tot n f = tot n g.
Proof. induction n as [|n IH]; intros H; [reflexivity|]. cbn. rewrite IH by (intros; apply H; lia). rewrite H by lia. reflexivity. Qed.
Lemma tot_plus n f g : tot n (fun i => f i + g i)%R = (tot n f + tot n g)%R.
Proof. induction n as [|n IH]; cbn; [lra|]. rewrite IH. lra. Qed.
Lemma tot_mul n c f : tot n (fun i => c * f i)%R = (c * tot n f)%R.
Proof. induction n as [|n IH]; cbn; [lra|]. rewrite IH. lra. Qed.
Lemma tot_const n c : tot n (fun _ => c) = (INR n * c)%R.
Proof. induction n as [|n IH]; [cbn; lra|]. rewrite S_INR. cbn [tot]. rewrite IH. lra. Qed.
Lemma tot_swap n m (f : nat -> nat -> R) : tot n (fun i => tot m (f i)) = tot m (fun j => tot n (fun i => f i j)).
Proof. induction n as [|n IH]; cbn [tot]; [rewrite tot_const; lra|]. rewrite IH, <- tot_plus. reflexivity. Qed.
Lemma tot_pos n f : 0 < n -> (forall i, i < n -> (0 < f i)%R) -> (0 < tot n f)%R.
Proof.
  induction n as [|n IH]; intros Hn H; [lia|]. cbn [tot]. destruct n as [|n]; [cbn [tot]; specialize (H 0 ltac:(lia)); lra|].
  specialize (IH ltac:(lia) ltac:(intros; apply H; lia)). specialize (H (S n) ltac:(lia)). lra.
Qed.
Lemma tot_nonneg n f : (forall i, i < n -> (0 <= f i)%R) -> (0 <= tot n f)%R.
Proof. induction n as [|n IH]; intros H; cbn [tot]; [lra|]. specialize (IH ltac:(intros; apply H; lia)). specialize (H n ltac:(lia)). lra. Qed.
Lemma tot_one_pos n f j : j < n -> (0 < f j)%R -> (forall i, i < n -> (0 <= f i)%R) -> (0 < tot n f)%R.
Proof.
  induction n as [|n IH]; intros Hj P H; [lia|]. cbn [tot]. destruct (Nat.eq_dec j n) as [->|N]; [pose proof (tot_nonneg n f ltac:(intros; apply H; lia)); lra|].
  specialize (IH ltac:(lia) P ltac:(intros; apply H; lia)). specialize (H n ltac:(lia)). lra.
Qed.
Lemma tot_shift n f : tot (S n) f = (f 0%nat + tot n (fun i => f (S i)))%R.
Proof. induction n as [|n IH]; [cbn; lra|]. change (tot (S (S n)) f) with (tot (S n) f + f (S n))%R. rewrite IH. cbn [tot]. lra. Qed.
Lemma tot_rev n f : tot n (fun i => f (n - 1 - i)) = tot n f.
Proof.
  induction n as [|n IH]; [reflexivity|]. rewrite tot_shift. cbn [tot]. replace (S n - 1 - 0) with n by lia.
  rewrite (tot_ext n (fun i => f (S n - 1 - S i)) (fun i => f (n - 1 - i))) by (intros; f_equal; lia). rewrite IH. lra.
Qed.

(** ** Gauss-Chebyshev *)
Section Cheb.
Variables (a b : R) (n : nat).
Hypothesis Hab : (a < b)%R.
Hypothesis Hn : 2 <= n.
Let Nn : (0 < INR n)%R. Proof. apply lt_0_INR. lia. Qed.
Let N2 : (2 <= INR n)%R. Proof. change 2%R with (INR 2). apply le_INR, Hn. Qed.
Lemma angle_in i : i < n -> (0 < PI / INR n * (INR i + 1 / 2))%R /\ (PI / INR n * (INR i + 1 / 2) < PI)%R.
Proof.
  intros Hi. pose proof PI_RGT_0 as Pp. pose proof (pos_INR i). assert (Q : (INR i + 1 <= INR n)%R) by (rewrite <- S_INR; apply le_INR; lia).
  split; [apply Rmult_lt_0_compat; [apply Rdiv_lt_0_compat; assumption|lra]|].
  replace (PI / INR n * (INR i + 1 / 2))%R with (PI * ((INR i + 1 / 2) / INR n))%R by (field; lra).
  rewrite <- (Rmult_1_r PI) at 2. apply Rmult_lt_compat_l; [exact Pp|]. apply (Rmult_lt_reg_r (INR n)); [exact Nn|]. replace ((INR i + 1 / 2) / INR n * INR n)%R with (INR i + 1 / 2)%R by (field; lra). lra.
Qed.
Lemma cheb_in i : i < n -> (a < cheb_node a b n i < b)%R.
Proof.
  intros Hi. destruct (angle_in i Hi) as [A B]. unfold cheb_node. set (t := (PI / INR n * (INR i + 1 / 2))%R) in *.
  assert (C1 : (cos t < 1)%R) by (rewrite <- cos_0; apply cos_decreasing_1; lra).
  assert (C2 : (-1 < cos t)%R) by (rewrite <- cos_PI; apply cos_decreasing_1; lra).
  assert (D : (0 < (b - a) / 2)%R) by lra. split.
  - assert ((b - a) / 2 * cos t < (b - a) / 2 * 1)%R by (apply Rmult_lt_compat_l; assumption). lra.
  - assert ((b - a) / 2 * -1 < (b - a) / 2 * cos t)%R by (apply Rmult_lt_compat_l; assumption). lra.
Qed.
Lemma cheb_increasing i j : i < j -> j < n -> (cheb_node a b n i < cheb_node a b n j)%R.
Proof.
  intros Hij Hj. destruct (angle_in i ltac:(lia)) as [A B]. destruct (angle_in j Hj) as [A' B']. unfold cheb_node.
  assert (L : (PI / INR n * (INR i + 1 / 2) < PI / INR n * (INR j + 1 / 2))%R).
  { apply Rmult_lt_compat_l; [apply Rdiv_lt_0_compat; [exact PI_RGT_0|exact Nn]|]. apply lt_INR in Hij. lra. }
  assert (C : (cos (PI / INR n * (INR j + 1 / 2)) < cos (PI / INR n * (INR i + 1 / 2)))%R) by (apply cos_decreasing_1; lra).
  assert (D : (0 < (b - a) / 2)%R) by lra. apply (Rmult_lt_compat_l _ _ _ D) in C. lra.
Qed.
Lemma angle_mirror i : i < n -> (PI / INR n * (INR (n - 1 - i) + 1 / 2) = PI - PI / INR n * (INR i + 1 / 2))%R.
Proof. intros Hi. rewrite !minus_INR by lia. change (INR 1) with 1%R. field. lra. Qed.
Lemma cheb_mirror i : i < n -> (cheb_node a b n (n - 1 - i) = a + b - cheb_node a b n i)%R.
Proof. intros Hi. unfold cheb_node. rewrite angle_mirror by exact Hi. rewrite Rtrigo_facts.cos_pi_minus. lra. Qed.
(* every entry of the sum is at least minus the factor *)
Lemma fejer_bound (g : nat -> R) : (g 0%nat = 1)%R -> (forall m, g m <= 1)%R -> forall M, (1 / (2 * INR (S M) - 1) <= tot (S M) (fun m => g m * fejer_factor m))%R.
Proof.
  intros G0 G M. induction M as [|M IH]; [cbn; rewrite G0; lra|]. change (tot (S (S M)) (fun m => g m * fejer_factor m)%R) with (tot (S M) (fun m => g m * fejer_factor m) + g (S M) * fejer_factor (S M))%R.
  cbn [fejer_factor]. pose proof (pos_INR M) as P0. rewrite (S_INR (S M)). rewrite S_INR in *. set (x := INR M) in *. pose proof (G (S M)) as G1.
  assert (Q : (0 < 2 / ((2 * (x + 1) - 1) * (2 * (x + 1) + 1)))%R) by (apply Rdiv_lt_0_compat; [lra|apply Rmult_lt_0_compat; lra]).
  assert (E : (1 / (2 * (x + 1 + 1) - 1) = 1 / (2 * (x + 1) - 1) - 2 / ((2 * (x + 1) - 1) * (2 * (x + 1) + 1)))%R) by (field; lra).
  assert (U : (g (S M) * (2 / ((2 * (x + 1) - 1) * (2 * (x + 1) + 1))) <= 1 * (2 / ((2 * (x + 1) - 1) * (2 * (x + 1) + 1))))%R) by (apply Rmult_le_compat_r; lra). lra.
Qed.
Lemma count_pos : exists M, fejer_count n = S M /\ 2 * M < n.
Proof. unfold fejer_count. pose proof (Nat.div_mod (n + 1) 2 ltac:(lia)). pose proof (Nat.mod_upper_bound (n + 1) 2 ltac:(lia)). exists ((n + 1) / 2 - 1). lia. Qed.
Lemma cheb_positive i : (0 < cheb_weight a b n i)%R.
Proof.
  unfold cheb_weight. apply Rmult_lt_0_compat; [apply Rdiv_lt_0_compat; lra|]. destruct count_pos as [M [-> _]].
  eapply Rlt_le_trans; [|apply (fejer_bound (fun m => cos (PI / INR n * ((INR i + 1 / 2) * (2 * INR m)))))].
  - rewrite S_INR. pose proof (pos_INR M). apply Rdiv_lt_0_compat; lra.
  - cbn [INR]. rewrite !Rmult_0_r. apply cos_0.
  - intros m. apply COS_bound.
Qed.
(* the sum of the cosines telescopes *)
Lemma cos_sum m : 1 <= m -> m < n -> tot n (fun i => cos (PI / INR n * ((INR i + 1 / 2) * (2 * INR m)))) = 0%R.
Proof.
  intros Hm Hmn. set (h := (PI / INR n * INR m)%R).
  assert (T : forall k, (tot k (fun i => cos (PI / INR n * ((INR i + 1 / 2) * (2 * INR m)))) * (2 * sin h) = sin (2 * INR k * h))%R).
  { induction k as [|k IH]; [cbn [tot INR]; rewrite Rmult_0_l, Rmult_0_r, Rmult_0_l, sin_0; reflexivity|]. cbn [tot]. rewrite Rmult_plus_distr_r, IH. rewrite S_INR.
    replace (PI / INR n * ((INR k + 1 / 2) * (2 * INR m)))%R with (2 * INR k * h + h)%R by (unfold h; field; lra).
    replace (2 * (INR k + 1) * h)%R with (2 * INR k * h + h + h)%R by lra. set (y := (2 * INR k * h)%R). rewrite (sin_plus (y + h) h).
    assert (Ey : sin y = (sin (y + h) * cos h - cos (y + h) * sin h)%R) by (rewrite <- sin_minus; f_equal; lra). rewrite Ey. ring. }
  specialize (T n). pose proof PI_RGT_0 as Pp. assert (1 <= INR m)%R by (change 1%R with (INR 1); apply le_INR, Hm). assert (Lm : (INR m < INR n)%R) by (apply lt_INR, Hmn).
  assert (Hh : (0 < h)%R) by (unfold h; apply Rmult_lt_0_compat; [apply Rdiv_lt_0_compat; assumption|lra]).
  assert (Hp : (h < PI)%R). { unfold h. replace (PI / INR n * INR m)%R with (PI * (INR m / INR n))%R by (field; lra). rewrite <- (Rmult_1_r PI) at 2. apply Rmult_lt_compat_l; [exact Pp|].
    apply (Rmult_lt_reg_r (INR n)); [exact Nn|]. replace (INR m / INR n * INR n)%R with (INR m) by (field; lra). lra. }
  assert (Z : sin (2 * INR n * h) = 0%R). { replace (2 * INR n * h)%R with (0 + 2 * INR m * PI)%R by (unfold h; field; lra). rewrite sin_period. apply sin_0. }
  rewrite Z in T. pose proof (sin_gt_0 h Hh Hp). apply Rmult_integral in T. destruct T as [T|T]; [exact T|lra].
Qed.
Lemma cheb_total : tot n (cheb_weight a b n) = (b - a)%R.
Proof.
  unfold cheb_weight. rewrite tot_mul, tot_swap. destruct count_pos as [M [-> HM]]. rewrite tot_shift.
  rewrite (tot_ext M _ (fun _ => 0%R)).
  - rewrite tot_const. rewrite (tot_ext n _ (fun _ => 1%R)); [rewrite tot_const; field; lra|]. intros i _. cbn [INR fejer_factor]. rewrite !Rmult_0_r, cos_0. lra.
  - intros m Hm. rewrite (tot_ext n _ (fun i => fejer_factor (S m) * cos (PI / INR n * ((INR i + 1 / 2) * (2 * INR (S m)))))%R) by (intros; lra).
    rewrite tot_mul, cos_sum by lia. lra.
Qed.
Lemma cheb_weight_mirror i : i < n -> cheb_weight a b n (n - 1 - i) = cheb_weight a b n i.
Proof.
  intros Hi. unfold cheb_weight. f_equal. apply tot_ext. intros m _. f_equal.
  replace (PI / INR n * ((INR (n - 1 - i) + 1 / 2) * (2 * INR m)))%R with (PI / INR n * (INR (n - 1 - i) + 1 / 2) * (2 * INR m))%R by ring.
  rewrite angle_mirror by exact Hi. replace ((PI - PI / INR n * (INR i + 1 / 2)) * (2 * INR m))%R with (- (PI / INR n * ((INR i + 1 / 2) * (2 * INR m))) + 2 * INR m * PI)%R by ring.
  rewrite cos_period. apply cos_neg.
Qed.
Lemma cheb_linear c d : tot n (fun i => cheb_weight a b n i * (c + d * cheb_node a b n i))%R = (c * (b - a) + d * ((b * b - a * a) / 2))%R.
Proof.
  assert (M : (tot n (fun i => cheb_weight a b n i * cheb_node a b n i) = (b * b - a * a) / 2)%R).
  { assert (E : (tot n (fun i => cheb_weight a b n i * cheb_node a b n i) + tot n (fun i => cheb_weight a b n i * cheb_node a b n i) = (a + b) * tot n (cheb_weight a b n))%R).
    { rewrite <- (tot_rev n (fun i => cheb_weight a b n i * cheb_node a b n i)%R) at 1. rewrite <- tot_plus, <- tot_mul. apply tot_ext. intros i Hi. rewrite cheb_weight_mirror, cheb_mirror by exact Hi. ring. }
    rewrite cheb_total in E. lra. }
  rewrite (tot_ext n _ (fun i => c * cheb_weight a b n i + d * (cheb_weight a b n i * cheb_node a b n i))%R) by (intros; ring).
  rewrite tot_plus, !tot_mul, cheb_total, M. reflexivity.
Qed.
End Cheb.

(** ** Niederreiter *)
Lemma nied_in a b i : (a < b)%R -> (a <= nied_node a b i < b)%R.
Proof.
  intros Hab. unfold nied_node. set (x := ((INR i + 1) * sqrt 2)%R). pose proof (base_fp x) as [A B]. unfold frac_part in A, B. set (y := (x - IZR (Int_part x))%R) in *.
  assert (D : (0 < b - a)%R) by lra. split; [assert (0 <= y * (b - a))%R by (apply Rmult_le_pos; lra); lra|]. assert (y * (b - a) < 1 * (b - a))%R by (apply Rmult_lt_compat_r; lra). lra.
Qed.
Lemma root_irrational (k z : Z) : (k <> 0)%Z -> (IZR k * sqrt 2 <> IZR z)%R.
Proof.
  intros Hk E. assert (Q : (2 * (k * k) = z * z)%Z).
  { apply eq_IZR. rewrite !mult_IZR. rewrite <- E. replace (IZR k * sqrt 2 * (IZR k * sqrt 2))%R with (IZR k * IZR k * (sqrt 2 * sqrt 2))%R by ring. rewrite sqrt_def by lra. ring. }
  clear E. assert (G : forall m, (0 <= m)%Z -> forall k z, Z.abs k = m -> (2 * (k * k) = z * z)%Z -> k = 0%Z).
  { intros m Hm. pattern m. apply Z_lt_induction; [|exact Hm]. clear m Hm. intros m IH u v Hu Q0. destruct (Z.eq_dec u 0) as [|N]; [assumption|]. exfalso.
    destruct (Z.Even_or_Odd v) as [[w Hw]|[w Hw]]; [|nia]. subst v. assert (Q1 : (u * u = 2 * (w * w))%Z) by nia.
    destruct (Z.Even_or_Odd u) as [[y Hy]|[y Hy]]; [|nia]. subst u. assert (Q2 : (2 * (y * y) = w * w)%Z) by nia.
    assert (y = 0)%Z by (apply (IH (Z.abs y) ltac:(lia) y w eq_refl Q2)). lia. }
  apply Hk, (G (Z.abs k) ltac:(lia) k z eq_refl Q).
Qed.
Lemma nied_distinct a b i j : (a < b)%R -> nied_node a b i = nied_node a b j -> i = j.
Proof.
  intros Hab E. unfold nied_node in E. set (x := ((INR i + 1) * sqrt 2)%R) in *. set (y := ((INR j + 1) * sqrt 2)%R) in *.
  assert (F : (x - IZR (Int_part x) = y - IZR (Int_part y))%R). { apply (Rmult_eq_reg_r (b - a)); lra. }
  destruct (Nat.eq_dec i j) as [|N]; [assumption|]. exfalso. apply (root_irrational (Z.of_nat i - Z.of_nat j) (Int_part x - Int_part y) ltac:(lia)).
  rewrite !minus_IZR, <- !INR_IZR_INZ. unfold x, y in *. lra.
Qed.
Lemma nied_total a b n : 2 <= n -> (a < b)%R -> (0 < nied_weight a b n)%R /\ tot n (fun _ => nied_weight a b n) = (b - a)%R.
Proof.
  intros Hn Hab. assert (0 < INR n)%R by (apply lt_0_INR; lia). unfold nied_weight. split; [rewrite Rmult_1_r; apply Rdiv_lt_0_compat; lra|]. rewrite tot_const. field. lra.
Qed.

(** ** Gauss-Legendre *)
Lemma all_ok_nth {A} (l : list (res A)) r : all_ok l = Ok r -> Forall2 (fun x y => x = Ok y) l r.
Proof.
  revert r. induction l as [|x l IH]; intros r H; cbn in H; [injection H as <-; constructor|]. destruct x as [v|e]; cbn [bind] in H; [|discriminate].
  destruct (all_ok l) as [vs|e]; cbn [bind] in H; [|discriminate]. injection H as <-. constructor; [reflexivity|]. apply IH. reflexivity.
Qed.
Lemma newton_pp size left : forall zs r, legendre_newton size left zs = Ok r -> length r = length zs /\ forall e, In e r -> snd e <> 0%R.
Proof.
  induction left as [|l IH]; intros zs r H; cbn [legendre_newton] in H; [discriminate|]. destruct (all_ok (map (legendre_step size) zs)) as [r0|e] eqn:E; cbn [bind] in H; [|discriminate].
  apply all_ok_nth in E. assert (L : length r0 = length zs) by (rewrite <- (map_length (legendre_step size)); clear -E; induction E; cbn; congruence).
  destruct (forallb _ _).
  - destruct (Nat.eqb l 0); [discriminate|]. injection H as <-. split; [exact L|]. clear -E. intros e He. remember (map (legendre_step size) zs) as m eqn:Em. revert zs Em. induction E as [|x y l l' Exy E IH]; intros zs Em; [destruct He|].
    destruct zs as [|z zs]; [discriminate|]. cbn in Em. injection Em as E1 E2. destruct He as [<-|He]; [|apply (IH He zs E2)].
    rewrite E1 in Exy. unfold legendre_step in Exy. destruct (legendre z size 1 1 0) as [p1 p2]. destruct (Req_EM_T _ 0); [discriminate|]. destruct (Req_EM_T _ 0) as [|N]; [discriminate|]. injection Exy as <-. exact N.
  - destruct (IH _ _ H) as [L' X]. split; [|exact X]. rewrite L', map_length. exact L.
Qed.
Lemma legendre_ok a b size x w : (a < b)%R -> 2 <= size -> gauss_legendre a b size = Ok (x, w) -> (forall i, i < size -> (a < x i < b)%R) ->
  forall i, i < size -> (0 < w i)%R /\ (size - 1 - i <> i -> x (size - 1 - i) = (a + b - x i)%R) /\ w (size - 1 - i) = w i.
Proof.
  intros Hab Hs H Hx. unfold gauss_legendre in H. destruct (legendre_newton _ _ _) as [r|e] eqn:E; cbn [bind] in H; [|discriminate].
  destruct (newton_pp _ _ _ _ E) as [L P]. rewrite map_length, seq_length in L. set (half := (size + 1) / 2) in *. clear E.
  assert (Hh : size <= 2 * half <= size + 1) by (unfold half; pose proof (Nat.div_mod (size + 1) 2 ltac:(lia)); pose proof (Nat.mod_upper_bound (size + 1) 2 ltac:(lia)); lia).
  injection H as Ex Ew. subst x w. cbv beta in *.
  assert (W : forall i, i < half -> (0 < 2 * (1 / 2 * (b - a)) / ((1 - fst (nth i r (0, 1)) * fst (nth i r (0, 1))) * (snd (nth i r (0, 1)) * snd (nth i r (0, 1)))))%R).
  { intros i Hi. assert (Q : (snd (nth i r (0, 1)) <> 0)%R) by (apply P, nth_In; lia).
    specialize (Hx (size - 1 - i) ltac:(lia)). replace (size - 1 - (size - 1 - i)) with i in Hx by lia. destruct (Nat.ltb_spec i half); [|lia].
    set (z := fst (nth i r (0, 1)%R)) in *. set (pp := snd (nth i r (0, 1)%R)) in *.
    assert (Z : (-1 < z < 1)%R). { split; apply (Rmult_lt_reg_l (1 / 2 * (b - a))%R); lra. }
    apply Rdiv_lt_0_compat; [lra|]. apply Rmult_lt_0_compat; [nra|]. destruct (Rtotal_order pp 0) as [T|[T|T]]; [nra|contradiction|nra]. }
  intros i Hi. replace (size - 1 - (size - 1 - i)) with i by lia.
  destruct (Nat.ltb_spec (size - 1 - i) half) as [A|A]; destruct (Nat.ltb_spec i half) as [B|B].
  - assert (M : size - 1 - i = i) by lia. rewrite M. split; [apply W, B|]. split; [intros K; congruence|reflexivity].
  - split; [apply W; lia|]. split; [intros _; lra|reflexivity].
  - split; [apply W; lia|]. split; [intros _; lra|reflexivity].
  - lia.
Qed.

(** ** The matrix *)
Lemma fit_quad_stochastic size x w f : 0 < size -> (forall j, j < size -> (0 < w j)%R) -> forall i, (forall j, j < size -> (0 <= f i (x i) j (x j))%R) ->
  (forall j, j < size -> (0 <= fit_quad size x w f i j)%R) /\ tot size (fit_quad size x w f i) = 1%R /\
  forall j k, j < size -> k < size -> (exists l, l < size /\ (0 < f i (x i) l (x l))%R) ->
    (fit_quad size x w f i j * (f i (x i) k (x k) * w k) = fit_quad size x w f i k * (f i (x i) j (x j) * w j))%R.
Proof.
  intros Hs Hw i Hf. unfold fit_quad.
  assert (R0 : forall j, j < size -> (0 <= fit_raw x w f i j)%R) by (intros j Hj; unfold fit_raw; apply Rmult_le_pos; [apply Hf, Hj|left; apply Hw, Hj]).
  set (z := all_zero size (fit_raw x w f i)). set (g := fun j => if z then 1%R else fit_raw x w f i j).
  assert (G0 : forall j, j < size -> (0 <= g j)%R) by (intros j Hj; unfold g; destruct z; [lra|apply R0, Hj]).
  assert (T0 : (0 < tot size g)%R).
  { destruct z eqn:Ez; [apply tot_pos; [exact Hs|intros; unfold g; lra]|]. unfold z, all_zero in Ez.
    assert (X : exists j, j < size /\ (0 < fit_raw x w f i j)%R).
    { destruct (existsb (fun j => if Req_EM_T (fit_raw x w f i j) 0 then false else true) (seq 0 size)) eqn:Ee.
      - apply existsb_exists in Ee. destruct Ee as [j [I Hj]]. apply in_seq in I. exists j. split; [lia|]. destruct (Req_EM_T _ 0) as [|N]; [discriminate|]. specialize (R0 j ltac:(lia)). lra.
      - exfalso. assert (forallb (fun j => if Req_EM_T (fit_raw x w f i j) 0 then true else false) (seq 0 size) = true); [|congruence].
        apply forallb_forall. intros j I. destruct (Req_EM_T (fit_raw x w f i j) 0) eqn:Er; [reflexivity|]. exfalso. assert (existsb (fun j => if Req_EM_T (fit_raw x w f i j) 0 then false else true) (seq 0 size) = true); [|congruence].
        apply existsb_exists. exists j. split; [exact I|]. rewrite Er. reflexivity. }
    destruct X as [j [Hj Pj]]. apply (tot_one_pos size g j Hj); [|exact G0]. exact Pj. }
  split; [|split].
  - intros j Hj. apply Rmult_le_pos; [apply G0, Hj|left; apply Rinv_0_lt_compat, T0].
  - transitivity (tot size (fun j => / tot size g * g j)%R); [|rewrite tot_mul; field; lra]. apply tot_ext. intros j _. change (g j / tot size g = / tot size g * g j)%R. unfold Rdiv. apply Rmult_comm.
  - intros j k Hj Hk [l [Hl Pl]]. assert (Ez : z = false).
    { unfold z, all_zero. destruct (forallb _ _) eqn:Ea; [|reflexivity]. rewrite forallb_forall in Ea. specialize (Ea l ltac:(apply in_seq; lia)). destruct (Req_EM_T _ 0) as [Q|]; [|discriminate].
      unfold fit_raw in Q. pose proof (Hw l Hl). assert (0 < f i (x i) l (x l) * w l)%R by (apply Rmult_lt_0_compat; assumption). lra. }
    change (g j / tot size g * fit_raw x w f i k = g k / tot size g * fit_raw x w f i j)%R. unfold g at 1 3. rewrite Ez. unfold Rdiv. ring.
Qed.
