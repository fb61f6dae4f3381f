(** L_Hussey: proofs about the Tauchen-Hussey approximation. *)
From Verif Require Export M_Hussey.
From Coq Require Import Reals Lra Lia ZArith Bool List.
Import ListNotations.
Close Scope R_scope.
Open Scope nat_scope.
Open Scope res_scope.

Lemma newton_pp : forall size l z z' pp, newton size l z = Ok (z', pp) -> pp <> 0%R.
Proof.
  induction l as [|l IH]; intros z z' pp H; [discriminate|]. cbn in H. destruct (hermite z size 1 (1 / Rpower PI (1 / 4)) 0) as [p1 p2].
  destruct (Req_EM_T (sqrt (2 * INR size) * p2) 0) as [E|E]; [discriminate|].
  match type of H with context [Rlt_dec ?a ?b] => destruct (Rlt_dec a b) end.
  - destruct (Nat.eqb l 0); [discriminate|]. injection H as _ <-. exact E.
  - apply IH in H. exact H.
Qed.
Lemma upd_same f i x : upd f i x i = x. Proof. unfold upd. rewrite Nat.eqb_refl. reflexivity. Qed.
Lemma upd_other f i x k : k <> i -> upd f i x k = f k.
Proof. intros H. unfold upd. destruct (Nat.eqb_spec k i); [contradiction|reflexivity]. Qed.

Lemma quad_weights size : forall t i z nd w nd' w', i + t <= size -> quadrature size t i z nd w = Ok (nd', w') ->
  (forall k, k < size -> k < i \/ size - 1 - k < i -> (0 < w k)%R) ->
  forall k, k < size -> k < i + t \/ size - 1 - k < i + t -> (0 < w' k)%R.
Proof.
  induction t as [|t IH]; intros i z nd w nd' w' L H I k Hk D; cbn [quadrature] in H.
  - injection H as _ <-. apply I; [exact Hk|]. rewrite Nat.add_0_r in D. exact D.
  - destruct (guess size i z nd) as [z0|e]; [|discriminate]. cbn [bind] in H.
    destruct (newton size 100 z0) as [[z1 pp]|e] eqn:EN; [|discriminate]. cbn [bind] in H. apply newton_pp in EN.
    assert (W : (0 < 2 / (pp * pp))%R) by (apply Rdiv_lt_0_compat; [lra|nra]).
    assert (L' : S i + t <= size) by lia. apply (IH _ _ _ _ _ _ L' H); [|exact Hk|lia]. intros q Hq Dq.
    destruct (Nat.eq_dec q (size - 1 - i)) as [->|N1]; [rewrite upd_same; exact W|]. rewrite upd_other by exact N1.
    destruct (Nat.eq_dec q i) as [->|N2]; [rewrite upd_same; exact W|]. rewrite upd_other by exact N2. apply I; lia.
Qed.
Lemma quad_mirror size : forall t i z nd w nd' w', i + t <= size -> 2 * (i + t) <= size -> quadrature size t i z nd w = Ok (nd', w') ->
  (forall k, k < size -> k < i \/ size - 1 - k < i -> nd (size - 1 - k) = (- nd k)%R /\ w (size - 1 - k) = w k) ->
  forall k, k < size -> k < i + t \/ size - 1 - k < i + t -> nd' (size - 1 - k) = (- nd' k)%R /\ w' (size - 1 - k) = w' k.
Proof.
  induction t as [|t IH]; intros i z nd w nd' w' L L2 H I k Hk D; cbn [quadrature] in H.
  - injection H as <- <-. apply I; [exact Hk|]. rewrite Nat.add_0_r in D. exact D.
  - destruct (guess size i z nd) as [z0|e]; [|discriminate]. cbn [bind] in H.
    destruct (newton size 100 z0) as [[z1 pp]|e]; [|discriminate]. cbn [bind] in H.
    assert (L' : S i + t <= size) by lia. assert (L3 : 2 * (S i + t) <= size) by lia. apply (IH _ _ _ _ _ _ L' L3 H); [|exact Hk|lia]. intros q Hq Dq.
    destruct (Nat.eq_dec q (size - 1 - i)) as [->|N1].
    { replace (size - 1 - (size - 1 - i)) with i by lia. rewrite !upd_same, !(upd_other _ (size - 1 - i) _ i), !upd_same by lia. split; [lra|reflexivity]. }
    destruct (Nat.eq_dec q i) as [->|N2].
    { rewrite !upd_same, !(upd_other _ (size - 1 - i) _ i), !upd_same by lia. split; [lra|reflexivity]. }
    rewrite !(upd_other _ (size - 1 - i) _ q), !(upd_other _ i _ q), !(upd_other _ (size - 1 - i) _ (size - 1 - q)), !(upd_other _ i _ (size - 1 - q)) by lia. apply I; lia.
Qed.

Lemma rsum_ext n f g : (forall i, i < n -> f i = g i) -> rsum n f = rsum n g.
Proof. intros H. unfold rsum. f_equal. apply map_ext_in. intros i Hi. apply in_seq in Hi. apply H; lia. Qed.
Lemma lsum_scale l (f : nat -> R) c : fold_right Rplus 0%R (map (fun i => (f i * c)%R) l) = (fold_right Rplus 0%R (map f l) * c)%R.
Proof. induction l as [|a l IH]; cbn; [lra|]. rewrite IH. lra. Qed.
Lemma rsum_scale n f c : rsum n (fun i => (f i * c)%R) = (rsum n f * c)%R. Proof. apply lsum_scale. Qed.
Lemma lsum_pos l (f : nat -> R) : l <> [] -> (forall i, In i l -> (0 < f i)%R) -> (0 < fold_right Rplus 0%R (map f l))%R.
Proof.
  induction l as [|a l IH]; intros N H; [contradiction|]. cbn. pose proof (H a (or_introl eq_refl)). destruct l as [|b l]; [cbn; lra|].
  assert (0 < fold_right Rplus 0 (map f (b :: l)))%R by (apply IH; [discriminate|intros i Hi; apply H; right; exact Hi]). lra.
Qed.
Lemma rsum_pos n f : 0 < n -> (forall i, i < n -> (0 < f i)%R) -> (0 < rsum n f)%R.
Proof. intros N H. apply lsum_pos; [destruct n; [lia|discriminate]|]. intros i Hi. apply in_seq in Hi. apply H; lia. Qed.
Lemma lsum_app a b (f : nat -> R) : fold_right Rplus 0%R (map f (a ++ b)) = (fold_right Rplus 0%R (map f a) + fold_right Rplus 0%R (map f b))%R.
Proof. induction a as [|x a IH]; cbn; [lra|]. rewrite IH. lra. Qed.
Lemma rsum_S n f : rsum (S n) f = (rsum n f + f n)%R.
Proof. unfold rsum. rewrite seq_S, lsum_app. cbn. lra. Qed.
Lemma rsum_head n f : rsum (S n) f = (f 0%nat + rsum n (fun i => f (S i)))%R.
Proof. unfold rsum. cbn [seq map fold_right]. rewrite <- seq_shift, map_map. reflexivity. Qed.
Lemma rsum_rev : forall n f, rsum n (fun i => f (n - 1 - i)) = rsum n f.
Proof.
  induction n as [|n IH]; intros f; [reflexivity|]. rewrite rsum_head, rsum_S. replace (S n - 1 - 0) with n by lia. rewrite <- (IH f), Rplus_comm. f_equal.
  apply rsum_ext. intros i Hi. f_equal. lia.
Qed.

Lemma sqrt_2pi : (0 < sqrt (2 * PI))%R. Proof. apply sqrt_lt_R0. pose proof PI_RGT_0. lra. Qed.
Lemma npdf_pos x l s : (0 < s)%R -> (0 < npdf x l s)%R.
Proof. intros H. apply Rdiv_lt_0_compat; [apply exp_pos|]. apply Rmult_lt_0_compat; [apply sqrt_2pi|exact H]. Qed.
Lemma npdf_shift x y l s : npdf (x + y) (l + y) s = npdf x l s.
Proof. unfold npdf. replace (x + y - (l + y))%R with (x - l)%R by ring. reflexivity. Qed.
Lemma npdf_scale c x l s : (0 < c)%R -> (0 < s)%R -> npdf (c * x) (c * l) (c * s) = (npdf x l s / c)%R.
Proof.
  intros Hc Hs. unfold npdf. replace ((c * x - c * l) / (c * s))%R with ((x - l) / s)%R by (field; lra). pose proof sqrt_2pi. field. lra.
Qed.
Lemma npdf_even x s : npdf (- x) 0 s = npdf x 0 s.
Proof. unfold npdf. f_equal. f_equal. unfold Rdiv. ring. Qed.
Lemma npdf_center x l s : npdf x l s = npdf (x - l) 0 s.
Proof. unfold npdf. f_equal. f_equal. unfold Rdiv. ring. Qed.
Lemma k_factor_eq k : (0 < k)%R -> (sqrt 2 * sqrt (2 * (k * k)))%R = (2 * k)%R.
Proof.
  intros H. rewrite <- sqrt_mult by nra. replace (2 * (2 * (k * k)))%R with ((2 * k) * (2 * k))%R by ring. apply sqrt_square. lra.
Qed.

(** The matrix in terms of the nodes and the weights of the quadrature. *)
Definition cell (sigma rho k : R) (nd w : nat -> R) (i j : nat) : R :=
  (w j * npdf (2 * k * (nd j - rho * nd i)) 0 sigma / npdf (2 * k * nd j) 0 k)%R.
Definition quads (size : nat) : res ((nat -> R) * (nat -> R)) := quadrature size ((size + 1) / 2) 0 0%R (fun _ => 0%R) (fun _ => 0%R).
Lemma hussey_inv size alpha sigma rho k p : (0 < sigma)%R -> (0 < k)%R -> 0 < size -> mc_hussey size alpha sigma rho k = Ok p ->
  exists nd w, quads size = Ok (nd, w) /\ (forall j, j < size -> (0 < w j)%R) /\
    forall i j, i < size -> j < size -> p i j = (cell sigma rho k nd w i j / rsum size (cell sigma rho k nd w i))%R.
Proof.
  intros Hs Hk Hn H. unfold mc_hussey in H. fold (quads size) in H. destruct (quads size) as [[nd w]|e] eqn:Q; [|discriminate]. cbn [bind] in H.
  exists nd, w. split; [reflexivity|]. assert (Hc : (size + 1) / 2 <= size /\ size <= 2 * ((size + 1) / 2)).
  { pose proof (Nat.div_mod (size + 1) 2 ltac:(lia)). pose proof (Nat.mod_upper_bound (size + 1) 2 ltac:(lia)). lia. }
  assert (W : forall j, j < size -> (0 < w j)%R).
  { intros j Hj. apply (quad_weights size _ _ _ _ _ _ _ (proj1 Hc : 0 + _ <= _) Q); [lia|exact Hj|lia]. }
  split; [exact W|]. intros i j Hi Hj. injection H as <-.
  assert (PIpos : (0 < sqrt PI * sqrt PI)%R). { pose proof (sqrt_lt_R0 _ PI_RGT_0). nra. }
  assert (E : forall j, j < size -> ((w j / (sqrt PI * sqrt PI)) * npdf (nd j * (sqrt 2 * sqrt (2 * (k * k))) + alpha) ((1 - rho) * alpha + rho * (nd i * (sqrt 2 * sqrt (2 * (k * k))) + alpha)) sigma /
     npdf (nd j * (sqrt 2 * sqrt (2 * (k * k))) + alpha) alpha k)%R = (cell sigma rho k nd w i j * / (sqrt PI * sqrt PI))%R).
  { intros q Hq. rewrite !k_factor_eq by exact Hk. unfold cell.
    rewrite (npdf_center (nd q * (2 * k) + alpha) alpha k), (npdf_center _ ((1 - rho) * alpha + _) sigma).
    replace (nd q * (2 * k) + alpha - alpha)%R with (2 * k * nd q)%R by ring.
    replace (nd q * (2 * k) + alpha - ((1 - rho) * alpha + rho * (nd i * (2 * k) + alpha)))%R with (2 * k * (nd q - rho * nd i))%R by ring.
    pose proof (npdf_pos (2 * k * nd q) 0 k Hk). pose proof (sqrt_lt_R0 _ PI_RGT_0). field. lra. }
  rewrite (E j Hj). rewrite (rsum_ext size _ _ E), rsum_scale.
  assert (S0 : (0 < rsum size (cell sigma rho k nd w i))%R).
  { apply rsum_pos; [exact Hn|]. intros q Hq. unfold cell. apply Rdiv_lt_0_compat; [apply Rmult_lt_0_compat; [apply W, Hq|]|]; apply npdf_pos; assumption. }
  pose proof (sqrt_lt_R0 _ PI_RGT_0). field. repeat split; lra.
Qed.
Lemma cell_pos sigma rho k nd w i j : (0 < sigma)%R -> (0 < k)%R -> (0 < w j)%R -> (0 < cell sigma rho k nd w i j)%R.
Proof. intros. unfold cell. apply Rdiv_lt_0_compat; [apply Rmult_lt_0_compat; [assumption|]|]; apply npdf_pos; assumption. Qed.
Lemma approx_inv size alpha sigma rho ok p : approximation_hussey size alpha sigma rho ok = Ok p ->
  (2 <= size)%Z /\ (0 < sigma)%R /\ (-1 <= rho <= 1)%R /\ exists k, (0 < k)%R /\
    match ok with Some k' => k = k' | None => (1 - rho * rho <> 0)%R /\ k = (((1 / 2 + rho / 4) + (1 - (1 / 2 + rho / 4)) / sqrt (1 - rho * rho)) * sigma)%R end /\
    mc_hussey (Z.to_nat size) alpha sigma rho k = Ok p.
Proof.
  unfold approximation_hussey. intros H. destruct (Z.leb_spec 2 size) as [L|]; [|discriminate]. destruct (Rlt_dec 0 sigma) as [Hs|]; [|discriminate].
  destruct (Rle_dec (-1) rho) as [R1|]; [|discriminate]. destruct (Rle_dec rho 1) as [R2|]; [|discriminate].
  split; [exact L|]. split; [exact Hs|]. split; [split; assumption|]. destruct ok as [k|].
  - destruct (Rlt_dec 0 k) as [K|]; [|discriminate]. exists k. split; [exact K|]. split; [reflexivity|exact H].
  - cbv zeta in H. destruct (Req_EM_T (1 - rho * rho) 0) as [|N]; [discriminate|]. cbn [bind] in H.
    assert (P : (0 < 1 - rho * rho)%R) by nra. pose proof (sqrt_lt_R0 _ P) as Q.
    assert (EQ : (((1 / 2 + rho / 4) + (1 - (1 / 2 + rho / 4)) / sqrt (1 - rho * rho)) * sigma)%R = ((1 / 2 + rho / 4) * sigma + (1 - (1 / 2 + rho / 4)) * (sigma / sqrt (1 - rho * rho)))%R) by (field; lra).
    eexists. split; [|split; [split; [exact N|symmetry; exact EQ]|exact H]].
    assert (0 < (1 / 2 + rho / 4) * sigma)%R by (apply Rmult_lt_0_compat; lra).
    assert (0 < (1 - (1 / 2 + rho / 4)) * (sigma / sqrt (1 - rho * rho)))%R by (apply Rmult_lt_0_compat; [lra|apply Rdiv_lt_0_compat; assumption]). lra.
Qed.
Lemma hussey_stochastic size alpha sigma rho k p : approximation_hussey size alpha sigma rho k = Ok p -> let n := Z.to_nat size in
  (forall i j, i < n -> j < n -> (0 < p i j)%R) /\ (forall i, i < n -> rsum n (p i) = 1%R).
Proof.
  intros H n. destruct (approx_inv _ _ _ _ _ _ H) as (L & Hs & _ & k' & Hk & _ & M). fold n in M. assert (Hn : 0 < n) by (unfold n; lia).
  destruct (hussey_inv n alpha sigma rho k' p Hs Hk Hn M) as (nd & w & _ & W & E).
  assert (S0 : forall i, (0 < rsum n (cell sigma rho k' nd w i))%R). { intros i. apply rsum_pos; [exact Hn|]. intros j Hj. apply cell_pos; auto. }
  split.
  - intros i j Hi Hj. rewrite E by assumption. apply Rdiv_lt_0_compat; [apply cell_pos; auto|apply S0].
  - intros i Hi. rewrite (rsum_ext n _ (fun j => (cell sigma rho k' nd w i j * / rsum n (cell sigma rho k' nd w i))%R)) by (intros j Hj; apply E; assumption).
    rewrite rsum_scale. specialize (S0 i). field. lra.
Qed.
Lemma hussey_ok size alpha sigma rho k : match quads size with Ok _ => exists p, mc_hussey size alpha sigma rho k = Ok p | Err e => mc_hussey size alpha sigma rho k = Err e end.
Proof. unfold mc_hussey. fold (quads size). destruct (quads size) as [[nd w]|e]; [eexists; reflexivity|reflexivity]. Qed.
Lemma cell_scale c sigma rho k nd w i j : (0 < c)%R -> (0 < sigma)%R -> (0 < k)%R -> cell (c * sigma) rho (c * k) nd w i j = cell sigma rho k nd w i j.
Proof.
  intros Hc Hs Hk. unfold cell. replace (2 * (c * k) * (nd j - rho * nd i))%R with (c * (2 * k * (nd j - rho * nd i)))%R by ring.
  replace (2 * (c * k) * nd j)%R with (c * (2 * k * nd j))%R by ring. replace (npdf (c * (2 * k * (nd j - rho * nd i))) 0 (c * sigma)) with (npdf (c * (2 * k * (nd j - rho * nd i))) (c * 0) (c * sigma)) by (f_equal; ring).
  replace (npdf (c * (2 * k * nd j)) 0 (c * k)) with (npdf (c * (2 * k * nd j)) (c * 0) (c * k)) by (f_equal; ring).
  rewrite !npdf_scale by assumption. pose proof (npdf_pos (2 * k * nd j) 0 k Hk). field. lra.
Qed.
Lemma hussey_invariant size a a' sigma rho k c p : (0 < c)%R -> approximation_hussey size a sigma rho k = Ok p ->
  exists p', approximation_hussey size a' (c * sigma) rho (option_map (Rmult c) k) = Ok p' /\
    forall i j, i < Z.to_nat size -> j < Z.to_nat size -> p' i j = p i j.
Proof.
  intros Hc H. destruct (approx_inv _ _ _ _ _ _ H) as (L & Hs & R & k' & Hk & EK & M). set (n := Z.to_nat size) in *. assert (Hn : 0 < n) by (unfold n; lia).
  assert (X : exists p', mc_hussey n a' (c * sigma) rho (c * k') = Ok p').
  { pose proof (hussey_ok n a sigma rho k') as O1. pose proof (hussey_ok n a' (c * sigma) rho (c * k')) as O2. rewrite M in O1. destruct (quads n); [exact O2|discriminate]. }
  destruct X as (p' & M'). exists p'. assert (Hs' : (0 < c * sigma)%R) by nra. assert (Hk' : (0 < c * k')%R) by nra. split.
  - unfold approximation_hussey. destruct (Z.leb_spec 2 size); [|lia]. destruct (Rlt_dec 0 (c * sigma)); [|lra]. destruct (Rle_dec (-1) rho); [|lra]. destruct (Rle_dec rho 1); [|lra].
    destruct k as [k|]; cbn [option_map].
    + subst k'. destruct (Rlt_dec 0 (c * k)); [|lra]. exact M'.
    + destruct EK as (N & EK). cbv zeta. destruct (Req_EM_T (1 - rho * rho) 0); [contradiction|]. cbn [bind]. rewrite <- M'. unfold n. f_equal. rewrite EK.
      assert (P : (0 < 1 - rho * rho)%R) by nra. pose proof (sqrt_lt_R0 _ P). field. lra.
  - intros i j Hi Hj. destruct (hussey_inv n a sigma rho k' p Hs Hk Hn M) as (nd & w & Q & _ & E). destruct (hussey_inv n a' _ rho _ p' Hs' Hk' Hn M') as (nd' & w' & Q' & _ & E').
    rewrite Q in Q'. injection Q' as <- <-. rewrite E, E' by assumption. rewrite cell_scale by assumption. f_equal. apply rsum_ext. intros q Hq. apply cell_scale; assumption.
Qed.
Lemma hussey_mirror size alpha sigma rho k p : approximation_hussey size alpha sigma rho k = Ok p -> let n := Z.to_nat size in Nat.even n = true ->
  forall i j, i < n -> j < n -> p (n - 1 - i) (n - 1 - j) = p i j.
Proof.
  intros H n Ev i j Hi Hj. destruct (approx_inv _ _ _ _ _ _ H) as (L & Hs & _ & k' & Hk & _ & M). fold n in M. assert (Hn : 0 < n) by (unfold n; lia).
  destruct (hussey_inv n alpha sigma rho k' p Hs Hk Hn M) as (nd & w & Q & W & E).
  apply Nat.even_spec in Ev. destruct Ev as (h & Eh).
  assert (D : (n + 1) / 2 = h). { rewrite Eh. replace (2 * h + 1) with (1 + h * 2) by lia. rewrite Nat.div_add by lia. reflexivity. }
  assert (MR : forall q, q < n -> nd (n - 1 - q) = (- nd q)%R /\ w (n - 1 - q) = w q).
  { intros q Hq. unfold quads in Q. rewrite D in Q. assert (L1 : 0 + h <= n) by lia. assert (L2 : 2 * (0 + h) <= n) by lia. apply (quad_mirror n h 0 0%R _ _ nd w L1 L2 Q); [|exact Hq|lia]. intros; lia. }
  assert (C : forall q r, q < n -> r < n -> cell sigma rho k' nd w (n - 1 - q) (n - 1 - r) = cell sigma rho k' nd w q r).
  { intros q r Hq Hr. unfold cell. destruct (MR q Hq) as (A & _). destruct (MR r Hr) as (B & C). rewrite A, B, C.
    replace (2 * k' * (- nd r - rho * - nd q))%R with (- (2 * k' * (nd r - rho * nd q)))%R by ring. replace (2 * k' * - nd r)%R with (- (2 * k' * nd r))%R by ring. rewrite !npdf_even. reflexivity. }
  rewrite !E by lia. rewrite C by assumption. f_equal. rewrite <- (rsum_rev n). apply rsum_ext. intros q Hq. apply C; assumption.
Qed.
