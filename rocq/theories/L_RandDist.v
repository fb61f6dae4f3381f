(** L_RandDist: random_distribution in doubles with overflow. *)
From Coq Require Import Reals Lra Lia List ZArith Permutation Bool.
From Flocq Require Import Core.
From Verif Require Import Fl M_Float S_Float L_Float1 L_Float2 M_FloatNorm S_FloatNorm L_FloatNorm M_RandDist S_RandDist.
Import ListNotations.
Local Open Scope R_scope.

Lemma big_pos : 0 < bpow radix2 1024. Proof. apply bpow_gt_0. Qed.
Lemma dmax_bounds : bpow radix2 1023 <= dmax < bpow radix2 1024.
Proof.
  unfold dmax. pose proof (bpow_gt_0 radix2 971). split; [|lra].
  assert (E : bpow radix2 1024 = 2 * bpow radix2 1023) by (change 1024%Z with (1 + 1023)%Z; rewrite bpow_plus; reflexivity).
  assert (bpow radix2 971 <= bpow radix2 1023) by (apply bpow_le; lia). rewrite E. lra.
Qed.
Lemma dmax_double : is_double dmax.
Proof.
  replace dmax with (IZR (2 ^ 53 - 1) * bpow radix2 971).
  - apply generic_format_FLT. exists (Float radix2 (2 ^ 53 - 1) 971); [reflexivity| |].
    + simpl Fnum. change (radix2 ^ 53)%Z with (2 ^ 53)%Z. rewrite Z.abs_eq by lia. lia.
    + simpl; lia.
  - unfold dmax. rewrite minus_IZR. change (IZR (2 ^ 53)) with (bpow radix2 53).
    change 1024%Z with (53 + 971)%Z. rewrite bpow_plus. ring.
Qed.

Lemma xround_small x : 0 <= x -> rnd x < bpow radix2 1024 -> xround x = XFin (rnd x).
Proof.
  intros P H. unfold xround. destruct (Rlt_dec (Rabs (rnd x)) (bpow radix2 1024)) as [|N]; [reflexivity|].
  exfalso. apply N. rewrite Rabs_pos_eq; [exact H|now apply rnd_nonneg].
Qed.
Lemma xround_cases x : 0 <= x -> (xround x = XFin (rnd x) /\ rnd x < bpow radix2 1024) \/ xround x = XPos.
Proof.
  intros P. unfold xround. pose proof (rnd_nonneg x P) as Q. rewrite (Rabs_pos_eq (rnd x)) by exact Q.
  destruct (Rlt_dec (rnd x) (bpow radix2 1024)) as [H|H]; [left; now split|right].
  destruct (Rlt_dec 0 x) as [|N]; [reflexivity|]. exfalso. apply H.
  assert (x = 0) by lra. subst x. rewrite rnd_0. apply big_pos.
Qed.

(** ** sums *)
Lemma split_fin l l1 l2 : Permutation (map XFin l) (l1 ++ l2) ->
  exists k1 k2, l1 = map XFin k1 /\ l2 = map XFin k2 /\ Permutation l (k1 ++ k2).
Proof.
  intros P. apply Permutation_sym, Permutation_map_inv in P. destruct P as (k & E & P).
  symmetry in E. apply map_eq_app in E. destruct E as (k1 & k2 & -> & E1 & E2).
  exists k1, k2. repeat split; auto. 
Qed.

Lemma xsum_fin l0 v : xsum l0 v -> forall l, l0 = map XFin l -> (forall x, In x l -> dnn x /\ x < bpow radix2 1024) ->
  v = XPos \/ exists r, v = XFin r /\ fsum l r /\ r < bpow radix2 1024.
Proof.
  induction 1 as [|y|l0 l1 l2 v1 v2 P X1 I1 X2 I2]; intros l E D.
  - destruct l; [|discriminate]. right. exists 0. repeat split; [constructor|apply big_pos].
  - destruct l as [|x [|? ?]]; try discriminate. injection E as ->. right. exists x.
    repeat split; [constructor|]. apply D. now left.
  - subst l0. destruct (split_fin _ _ _ P) as (k1 & k2 & -> & -> & Q).
    assert (D1 : forall x, In x k1 -> dnn x /\ x < bpow radix2 1024).
    { intros x I. apply D. apply (Permutation_in x (Permutation_sym Q)), in_or_app. now left. }
    assert (D2 : forall x, In x k2 -> dnn x /\ x < bpow radix2 1024).
    { intros x I. apply D. apply (Permutation_in x (Permutation_sym Q)), in_or_app. now right. }
    destruct (I1 k1 eq_refl D1) as [ -> |(r1 & -> & F1 & B1)].
    { left. destruct (I2 k2 eq_refl D2) as [ -> |(r2 & -> & _)]; reflexivity. }
    destruct (I2 k2 eq_refl D2) as [ -> |(r2 & -> & F2 & B2)]; [now left|].
    assert (N1 : 0 <= r1) by (apply (fsum_bounds _ _ F1); intros; now apply D1).
    assert (N2 : 0 <= r2) by (apply (fsum_bounds _ _ F2); intros; now apply D2).
    cbn [xadd]. destruct (xround_cases (r1 + r2) ltac:(lra)) as [[-> B]| -> ]; [right|now left].
    exists (rnd (r1 + r2)). split; [reflexivity|]. split; [econstructor; eauto|exact B].
Qed.

Lemma rsum_nn_le (l k1 k2 : list R) : (forall x, In x l -> 0 <= x) -> Permutation l (k1 ++ k2) -> rsum k1 <= rsum l /\ rsum k2 <= rsum l.
Proof.
  intros N P. rewrite (rsum_perm _ _ P), rsum_app.
  assert (0 <= rsum k1) by (apply rsum_nonneg; intros x I; apply N, (Permutation_in x (Permutation_sym P)), in_or_app; now left).
  assert (0 <= rsum k2) by (apply rsum_nonneg; intros x I; apply N, (Permutation_in x (Permutation_sym P)), in_or_app; now right).
  lra.
Qed.

Lemma xsum_small l0 v : xsum l0 v -> forall l, l0 = map XFin l -> (forall x, In x l -> dnn x) ->
  INR (length l) <= 1000000000 -> rsum l <= bpow radix2 1023 ->
  exists r, v = XFin r /\ fsum l r.
Proof.
  induction 1 as [|y|l0 l1 l2 v1 v2 P X1 I1 X2 I2]; intros l E D N B.
  - destruct l; [|discriminate]. exists 0. repeat split; constructor.
  - destruct l as [|x [|? ?]]; try discriminate. injection E as ->. exists x. repeat split; constructor.
  - subst l0. destruct (split_fin _ _ _ P) as (k1 & k2 & -> & -> & Q).
    assert (D1 : forall x, In x k1 -> dnn x).
    { intros x I. apply D. apply (Permutation_in x (Permutation_sym Q)), in_or_app. now left. }
    assert (D2 : forall x, In x k2 -> dnn x).
    { intros x I. apply D. apply (Permutation_in x (Permutation_sym Q)), in_or_app. now right. }
    destruct (rsum_nn_le l k1 k2 (fun x I => proj2 (D x I)) Q) as [R1 R2].
    pose proof (Permutation_length Q) as LQ. rewrite app_length in LQ.
    assert (L1 : INR (length k1) <= INR (length l)) by (apply le_INR; lia).
    assert (L2 : INR (length k2) <= INR (length l)) by (apply le_INR; lia).
    destruct (I1 k1 eq_refl D1 ltac:(lra) ltac:(lra)) as (r1 & -> & F1).
    destruct (I2 k2 eq_refl D2 ltac:(lra) ltac:(lra)) as (r2 & -> & F2).
    assert (F : fsum l (rnd (r1 + r2))) by (econstructor; eauto).
    destruct (fsum_bounds _ _ F D) as [_ [_ U]].
    assert (N1 : 0 <= r1) by (now apply (fsum_bounds _ _ F1)).
    assert (N2 : 0 <= r2) by (now apply (fsum_bounds _ _ F2)).
    cbn [xadd]. rewrite xround_small; [exists (rnd (r1 + r2)); now split|lra|].
    eapply Rle_lt_trans; [exact U|].
    assert (X : INR (length l) * uu <= / 9000000) by (rewrite uu_val; lra).
    pose proof (hi_le (length l) ltac:(lra)) as H.
    assert (RN : 0 <= rsum l) by (apply rsum_nonneg; intros x I; now apply D).
    pose proof (bpow_gt_0 radix2 1023) as B0.
    assert (E : bpow radix2 1024 = 2 * bpow radix2 1023) by (change 1024%Z with (1 + 1023)%Z; rewrite bpow_plus; reflexivity).
    rewrite E. set (b := bpow radix2 1023) in *. clearbody b.
    apply Rle_lt_trans with ((1 + 2 * / 9000000) * b); [|lra].
    apply Rmult_le_compat; [left; apply hi_pos|exact RN|lra|exact B].
Qed.

(** a way of summing that gives a certain possible result *)
Definition choose (l : list R) (v : R) : list R -> R := fun l' => if list_eq_dec Req_EM_T l' l then v else seq_sum l'.
Lemma choose_summing l v : fsum l v -> summing (choose l v).
Proof. intros F l'. unfold choose. destruct (list_eq_dec Req_EM_T l' l) as [->|]; [exact F|apply seq_summing]. Qed.
Lemma choose_at l v : choose l v l = v.
Proof. unfold choose. destruct (list_eq_dec Req_EM_T l l); congruence. Qed.

(** ** weights *)
Lemma weight_fin a : x_is_zero (clip0 (nan_to_num a)) = (if Req_EM_T (value_of a) 0 then true else false) /\
  clip0 (nan_to_num a) = XFin (value_of a).
Proof.
  pose proof dmax_bounds as M. pose proof (bpow_gt_0 radix2 1023) as B.
  assert (E : clip0 (nan_to_num a) = XFin (value_of a)).
  { destruct a as [x| | |]; cbn [nan_to_num clip0 value_of]; f_equal.
    - unfold Rmax. destruct (Rle_dec 0 x), (Rlt_dec 0 x); lra.
    - apply Rmax_right. lra.
    - apply Rmax_left. lra.
    - apply Rmax_left. lra. }
  split; [|exact E]. rewrite E. reflexivity.
Qed.
Lemma value_dnn a : a_double a -> dnn (value_of a).
Proof.
  pose proof dmax_bounds as M. pose proof (bpow_gt_0 radix2 1023) as B.
  destruct a as [x| | |]; cbn [a_double value_of]; intros H.
  - destruct (Rlt_dec 0 x); [split; [apply H|lra]|apply dnn_0].
  - split; [apply dmax_double|lra].
  - apply dnn_0.
  - apply dnn_0.
Qed.
Lemma value_small a : a_double a -> value_of a < bpow radix2 1024.
Proof.
  pose proof dmax_bounds as M. pose proof big_pos as B.
  destruct a as [x| | |]; cbn [a_double value_of]; intros H; try lra.
  destruct (Rlt_dec 0 x); [|lra]. destruct H as [_ H]. rewrite Rabs_pos_eq in H; lra.
Qed.

Definition vals (d : xmat) : fmat := fun i j => value_of (d i j).
Lemma filled_fin n d i j : x_filled n d i j = XFin (f_fill n (vals d) i j).
Proof.
  unfold x_filled, f_fill.
  assert (E : forallb x_is_zero (xrow n (x_weights d i)) = f_blank n (vals d i)).
  { unfold f_blank, xrow, frow. induction (seq 0 n) as [|k l IH]; [reflexivity|].
    cbn [map forallb]. rewrite IH. f_equal. apply weight_fin. }
  rewrite E. destruct (f_blank n (vals d i)); [reflexivity|]. apply weight_fin.
Qed.
Lemma filled_row n d i : xrow n (x_filled n d i) = map XFin (frow n (f_fill n (vals d) i)).
Proof. unfold xrow, frow. rewrite map_map. apply map_ext. intros j. apply filled_fin. Qed.

Lemma row_doubles n d i : (0 < n)%nat -> INR n <= 1000000000 -> (forall j, (j < n)%nat -> a_double (d i j)) ->
  forall x, In x (frow n (f_fill n (vals d) i)) -> dnn x /\ x < bpow radix2 1024.
Proof.
  intros K N D x Ix. destruct (in_frow _ _ _ Ix) as (j & J & ->).
  destruct (fill_row n (vals d) i K) as [A _]; [intros l L; apply value_dnn, D, L|].
  split; [now apply A|]. unfold f_fill. destruct (f_blank n (vals d i)); [apply (bpow_lt radix2 0 1024); lia|].
  apply value_small. now apply D.
Qed.
Lemma row_sum_cases xs n d i : xsumming xs -> (0 < n)%nat -> INR n <= 1000000000 -> (forall j, (j < n)%nat -> a_double (d i j)) ->
  xs (xrow n (x_filled n d i)) = XPos \/
  exists r, xs (xrow n (x_filled n d i)) = XFin r /\ fsum (frow n (f_fill n (vals d) i)) r.
Proof.
  intros XS K N D.
  destruct (xsum_fin _ _ (XS (xrow n (x_filled n d i))) _ (filled_row n d i) (row_doubles n d i K N D)) as [H|(r & H & F & _)].
  - now left.
  - right. exists r. now split.
Qed.

Section Good.
Variables (xs : list xdouble -> xdouble) (n : nat) (d : xmat) (i : nat).
Hypothesis XS : xsumming xs.
Hypothesis K : (0 < n)%nat.
Hypothesis N : INR n <= 1000000000.
Hypothesis D : forall j, (j < n)%nat -> a_double (d i j).
Hypothesis B : xs (xrow n (x_filled n d i)) <> XPos.

Lemma good_fill : (forall j, (j < n)%nat -> dnn (f_fill n (vals d) i j)) /\ (exists j, (j < n)%nat /\ 0 < f_fill n (vals d) i j).
Proof. apply fill_row; [exact K|]. intros j J. apply value_dnn, D, J. Qed.

Lemma good_row : exists sm, summing sm /\ forall j, (j < n)%nat ->
  x_random_distribution xs n d i j = XFin (f_shares sm n (vals d) i j).
Proof.
  destruct good_fill as [A P].
  assert (DD : forall x, In x (frow n (f_fill n (vals d) i)) -> dnn x).
  { intros x I. destruct (in_frow _ _ _ I) as (j & J & ->). auto. }
  destruct (row_sum_cases xs n d i XS K N D) as [E|(r & E & F)]; [contradiction|].
  exists (choose (frow n (f_fill n (vals d) i)) r). split; [now apply choose_summing|].
  intros j J. unfold x_random_distribution, f_shares, f_normalize. rewrite E, choose_at, filled_fin. cbn [xdiv].
  pose proof (choose_summing _ _ F) as S.
  pose proof (quot_bounds _ n (f_fill n (vals d) i) S N A P j J) as (_ & [Q0 Q1] & _). rewrite choose_at in Q0, Q1.
  pose proof (total_pos n (f_fill n (vals d) i) A P) as T.
  destruct (fsum_bounds _ _ F DD) as [_ [L _]].
  assert (V : 0 < r).
  { eapply Rlt_le_trans; [|exact L]. apply Rmult_lt_0_compat; [apply lo_pos|exact T]. }
  destruct (Req_EM_T r 0) as [Z|_]; [lra|]. apply xround_small; [exact Q0|].
  eapply Rle_lt_trans; [apply rnd_le_1; exact Q1|]. apply (bpow_lt radix2 0 1024). lia.
Qed.
End Good.

Lemma finite_accepted xs xs' n d : xsumming xs -> xsumming xs' -> (2 <= n)%nat -> INR n <= 1000000000 ->
  (forall i j, (i < n)%nat -> (j < n)%nat -> a_double (d i j)) ->
  (forall i, (i < n)%nat -> xs (xrow n (x_filled n d i)) <> XPos) ->
  x_accepts xs' n (x_random_distribution xs n d).
Proof.
  intros XS XS' K N D B. split; [exact K|].
  assert (R : forall i, (i < n)%nat -> exists sm, summing sm /\ forall j, (j < n)%nat ->
    x_random_distribution xs n d i j = XFin (f_shares sm n (vals d) i j)).
  { intros i I. apply good_row; [exact XS|lia|exact N|intros j J; now apply D|exact (B i I)]. }
  split.
  - intros i j I J. destruct (R i I) as (sm & S & E). exists (f_shares sm n (vals d) i j). split; [now apply E|].
    destruct (good_fill n d i ltac:(lia) (fun j => D i j I)) as [A P].
    apply (share_range sm n (f_fill n (vals d) i) S N A P j J).
  - intros i I. destruct (R i I) as (sm & S & E).
    destruct (good_fill n d i ltac:(lia) (fun j => D i j I)) as [A P].
    assert (ER : xrow n (x_random_distribution xs n d i) = map XFin (frow n (f_shares sm n (vals d) i))).
    { unfold xrow, frow. rewrite map_map. apply map_ext_in. intros j J. apply in_seq in J. apply E. lia. }
    assert (RG : forall j, (j < n)%nat -> is_double (f_shares sm n (vals d) i j) /\ 0 <= f_shares sm n (vals d) i j <= 1)
      by (intros j J; apply (share_range sm n (f_fill n (vals d) i) S N A P j J)).
    destruct (xsum_small _ _ (XS' (xrow n (x_random_distribution xs n d i))) _ ER) as (r & E' & F).
    + intros x Ix. destruct (in_frow _ _ _ Ix) as (j & J & ->). destruct (RG j J) as (G1 & G2 & _). now split.
    + rewrite frow_length. exact N.
    + apply Rle_trans with (INR n * 1).
      * rewrite <- rsumn_const. apply rsumn_le. intros j J. now apply RG.
      * rewrite Rmult_1_r. eapply Rle_trans; [exact N|].
        apply Rle_trans with (bpow radix2 30); [simpl; lra|apply bpow_le; lia].
    + exists r. split; [exact E'|].
      pose proof (share_sums sm n (f_fill n (vals d) i) S N A P _ (choose_summing _ _ F)) as C.
      unfold f_shares, f_normalize in C. 
      change (fun j => rnd (f_fill n (vals d) i j / sm (frow n (f_fill n (vals d) i)))) with (f_shares sm n (vals d) i) in C.
      replace r with (choose (frow n (f_shares sm n (vals d) i)) r (frow n (f_shares sm n (vals d) i))) by apply choose_at.
      exact C.
Qed.


(** a total that overflows gives a row of zeros *)
Lemma zero_row xs' n (p : xmat) i : xsumming xs' -> (forall j, (j < n)%nat -> p i j = XFin 0) ->
  forall v, xs' (xrow n (p i)) = XFin v -> f_close1 v -> False.
Proof.
  intros XS' Z v E Cl.
  assert (ER : xrow n (p i) = map XFin (frow n (fun _ => 0))).
  { unfold xrow, frow. rewrite map_map. apply map_ext_in. intros j J. apply in_seq in J. apply Z. lia. }
  assert (D0 : forall x, In x (frow n (fun _ => 0)) -> x = 0).
  { intros x Ix. now destruct (in_frow _ _ _ Ix) as (j & _ & ->). }
  destruct (xsum_fin _ _ (XS' (xrow n (p i))) _ ER) as [H|(r & H & F & _)].
  - intros x Ix. rewrite (D0 x Ix). split; [apply dnn_0|apply big_pos].
  - rewrite H in E. discriminate.
  - rewrite H in E. injection E as <-. destruct (fsum_bounds _ _ F) as [[Fr _] [_ U]].
    { intros x Ix. rewrite (D0 x Ix). apply dnn_0. }
    rewrite frow_rsum, rsumn_zero in U by reflexivity.
    pose proof (close_out _ Fr Cl) as O. apply Rabs_le_inv in O. lra.
Qed.

Theorem random_distribution_iff xs xs' n d : xsumming xs -> xsumming xs' -> (2 <= n)%nat -> INR n <= 1000000000 ->
  (forall i j, (i < n)%nat -> (j < n)%nat -> a_double (d i j)) ->
  (x_accepts xs' n (x_random_distribution xs n d) <->
   forall i, (i < n)%nat -> xs (xrow n (x_filled n d i)) <> XPos).
Proof.
  intros XS XS' K N D. split; [|now apply finite_accepted].
  intros (_ & _ & C) i I E. destruct (C i I) as (v & Ev & Cl).
  apply (zero_row xs' n (x_random_distribution xs n d) i XS') with (v := v); auto.
  intros j J. unfold x_random_distribution. rewrite E, filled_fin. reflexivity.
Qed.

Lemma small_finite xs n d i : xsumming xs -> (0 < n)%nat -> INR n <= 1000000000 ->
  (forall j, (j < n)%nat -> a_double (d i j)) -> rsumn n (vals d i) <= bpow radix2 1023 ->
  xs (xrow n (x_filled n d i)) <> XPos.
Proof.
  intros XS K N D B E. destruct (good_fill n d i K D) as [A P].
  destruct (xsum_small _ _ (XS (xrow n (x_filled n d i))) (frow n (f_fill n (vals d) i)) (filled_row n d i)) as (r & E' & _).
  - intros x Ix. destruct (in_frow _ _ _ Ix) as (j & J & ->). auto.
  - rewrite frow_length. exact N.
  - rewrite frow_rsum. unfold f_fill. destruct (f_blank n (vals d i)); [|exact B].
    rewrite rsumn_const, Rmult_1_r. eapply Rle_trans; [exact N|].
    apply Rle_trans with (bpow radix2 30); [simpl; lra|apply bpow_le; lia].
  - rewrite E in E'. discriminate.
Qed.

Theorem random_distribution_accepted xs xs' n d : xsumming xs -> xsumming xs' -> (2 <= n)%nat -> INR n <= 1000000000 ->
  (forall i j, (i < n)%nat -> (j < n)%nat -> a_double (d i j)) ->
  (forall i, (i < n)%nat -> rsumn n (fun j => value_of (d i j)) <= bpow radix2 1023) ->
  x_accepts xs' n (x_random_distribution xs n d).
Proof.
  intros XS XS' K N D B. apply finite_accepted; auto. intros i I. apply small_finite; auto; [lia|exact (B i I)].
Qed.

(** ** one infinity in a row *)
Lemma rnd_dmax x : 0 <= x < bpow radix2 970 -> rnd (dmax + x) = dmax.
Proof.
  intros [X0 X1]. pose proof dmax_bounds as [M _]. pose proof (bpow_gt_0 radix2 1023) as B0. apply Rle_antisym.
  - apply round_N_le_midp; auto with typeclass_instances; [apply dmax_double|].
    rewrite succ_eq_pos by lra.
    assert (U : ulp radix2 fexp64 dmax = bpow radix2 971).
    { rewrite ulp_neq_0 by lra. f_equal. unfold cexp.
      assert (G : mag radix2 dmax = 1024%Z :> Z).
      { apply mag_unique_pos. pose proof dmax_bounds. exact H. }
      rewrite G. reflexivity. }
    rewrite U. assert (E : bpow radix2 971 = 2 * bpow radix2 970) by (change 971%Z with (1 + 970)%Z; rewrite bpow_plus; reflexivity).
    rewrite E. lra.
  - rewrite <- (rnd_id dmax dmax_double) at 1. apply rnd_le. lra.
Qed.

Lemma xsum_one_big l0 v : xsum l0 v -> forall l, l0 = map XFin l -> (forall x, In x l -> dnn x) ->
  INR (length l) <= 1000000000 ->
  forall k, Permutation l (dmax :: k) -> rsum k <= bpow radix2 969 -> v = XFin dmax.
Proof.
  assert (BB : bpow radix2 969 <= bpow radix2 1023) by (apply bpow_le; lia).
  pose proof (bpow_gt_0 radix2 969) as B0.
  assert (E970 : bpow radix2 970 = 2 * bpow radix2 969) by (change 970%Z with (1 + 969)%Z; rewrite bpow_plus; reflexivity).
  assert (LT : forall l r, (forall x, In x l -> dnn x) -> INR (length l) <= 1000000000 -> rsum l <= bpow radix2 969 -> fsum l r ->
    0 <= r < bpow radix2 970).
  { intros l r D N B F. destruct (fsum_bounds _ _ F D) as [[_ P] [_ U]]. split; [exact P|]. eapply Rle_lt_trans; [exact U|].
    assert (X : INR (length l) * uu <= / 9000000) by (rewrite uu_val; lra). pose proof (hi_le (length l) ltac:(lra)) as H.
    assert (RN : 0 <= rsum l) by (apply rsum_nonneg; intros x I; now apply D).
    rewrite E970. set (b := bpow radix2 969) in *. clearbody b.
    apply Rle_lt_trans with ((1 + 2 * / 9000000) * b); [|lra].
    apply Rmult_le_compat; [left; apply hi_pos|exact RN|lra|exact B]. }
  pose proof dmax_bounds as [M M']. pose proof (bpow_gt_0 radix2 1023) as B1.
  induction 1 as [|y|l0 l1 l2 v1 v2 P X1 I1 X2 I2]; intros l E D N k PK B.
  - destruct l; [|discriminate]. apply Permutation_nil in PK. discriminate.
  - destruct l as [|x [|? ?]]; try discriminate. injection E as ->.
    apply Permutation_length_1_inv in PK. injection PK as -> _. reflexivity.
  - subst l0. destruct (split_fin _ _ _ P) as (k1 & k2 & -> & -> & Q).
    assert (D1 : forall x, In x k1 -> dnn x).
    { intros x I. apply D. apply (Permutation_in x (Permutation_sym Q)), in_or_app. now left. }
    assert (D2 : forall x, In x k2 -> dnn x).
    { intros x I. apply D. apply (Permutation_in x (Permutation_sym Q)), in_or_app. now right. }
    pose proof (Permutation_length Q) as LQ. rewrite app_length in LQ.
    assert (L1 : INR (length k1) <= 1000000000) by (eapply Rle_trans; [apply le_INR|exact N]; lia).
    assert (L2 : INR (length k2) <= 1000000000) by (eapply Rle_trans; [apply le_INR|exact N]; lia).
    assert (Q' : Permutation (k1 ++ k2) (dmax :: k)) by (etransitivity; [symmetry; exact Q|exact PK]).
    assert (Ik : In dmax (k1 ++ k2)) by (apply (Permutation_in dmax (Permutation_sym Q')); now left).
    apply in_app_or in Ik. destruct Ik as [Ik|Ik].
    + apply in_split in Ik. destruct Ik as (a & b & ->).
      assert (Pa : Permutation (a ++ dmax :: b) (dmax :: a ++ b)) by (symmetry; apply Permutation_middle).
      assert (PP : Permutation (dmax :: (a ++ b) ++ k2) (dmax :: k)).
      { etransitivity; [|exact Q']. change (dmax :: (a ++ b) ++ k2) with ((dmax :: a ++ b) ++ k2).
        apply Permutation_app_tail. now symmetry. }
      apply Permutation_cons_inv in PP.
      assert (NN : forall x, In x k -> 0 <= x).
      { intros x I. apply D. apply (Permutation_in x (Permutation_sym PK)). now right. }
      destruct (rsum_nn_le k (a ++ b) k2 NN (Permutation_sym PP)) as [R1 R2].
      rewrite (I1 _ eq_refl D1 L1 (a ++ b) Pa ltac:(lra)).
      destruct (xsum_small _ _ X2 k2 eq_refl D2 L2 ltac:(lra)) as (r & -> & F).
      pose proof (LT k2 r D2 L2 ltac:(lra) F) as Hr. cbn [xadd]. rewrite xround_small; rewrite ?rnd_dmax; auto; lra.
    + apply in_split in Ik. destruct Ik as (a & b & ->).
      assert (Pa : Permutation (a ++ dmax :: b) (dmax :: a ++ b)) by (symmetry; apply Permutation_middle).
      assert (PP : Permutation (dmax :: k1 ++ (a ++ b)) (dmax :: k)).
      { etransitivity; [|exact Q']. etransitivity; [apply Permutation_middle|]. apply Permutation_app_head. now symmetry. }
      apply Permutation_cons_inv in PP.
      assert (NN : forall x, In x k -> 0 <= x).
      { intros x I. apply D. apply (Permutation_in x (Permutation_sym PK)). now right. }
      destruct (rsum_nn_le k k1 (a ++ b) NN (Permutation_sym PP)) as [R1 R2].
      rewrite (I2 _ eq_refl D2 L2 (a ++ b) Pa ltac:(lra)).
      destruct (xsum_small _ _ X1 k1 eq_refl D1 L1 ltac:(lra)) as (r & -> & F).
      pose proof (LT k1 r D1 L1 ltac:(lra) F) as Hr. cbn [xadd]. rewrite (Rplus_comm r dmax).
      rewrite xround_small; rewrite ?rnd_dmax; auto; lra.
Qed.

Theorem random_distribution_accurate xs n d i j x : xsumming xs -> INR n <= 1000000000 ->
  (forall l, (l < n)%nat -> a_double (d i l)) -> rsumn n (fun l => value_of (d i l)) <= bpow radix2 1023 ->
  (j < n)%nat -> is_share n (fun l => value_of (d i l)) j x ->
  exists y, x_random_distribution xs n d i j = XFin y /\ Rabs (y - x) <= 4 * INR n * uu * x + tiny.
Proof.
  intros XS N D B J H.
  destruct (good_row xs n d i XS ltac:(lia) N D (small_finite xs n d i XS ltac:(lia) N D B)) as (sm & S & E).
  exists (f_shares sm n (vals d) i j). split; [now apply E|]. apply shares_accurate; auto.
  intros l L. apply value_dnn, D, L.
Qed.

(** ** two infinities in one row *)
Definition spread : xmat := fun i j => match i with 0%nat => XPos | _ => match j with 0%nat => XFin 1 | _ => XNan end end.
Lemma spread_doubles : forall i j, (i < 2)%nat -> (j < 2)%nat -> a_double (spread i j).
Proof.
  intros i j _ _. destruct i as [|i]; [exact I|]. destruct j as [|j]; [|exact I]. split; [apply is_double_1|].
  rewrite Rabs_R1. apply (bpow_lt radix2 0 1024). lia.
Qed.
Lemma spread_fill j : f_fill 2 (vals spread) 0%nat j = dmax.
Proof.
  pose proof dmax_bounds as M. pose proof (bpow_gt_0 radix2 1023) as B0.
  unfold f_fill. destruct (f_blank 2 (vals spread 0%nat)) eqn:E; [|reflexivity].
  apply (proj1 (blank_spec 2 (vals spread 0%nat))) with (j := 0%nat) in E; [|lia]. cbn in E. lra.
Qed.
Lemma spread_sum xs : xsumming xs -> xs (xrow 2 (x_filled 2 spread 0%nat)) = XPos.
Proof.
  intros XS. pose proof dmax_bounds as M. pose proof (bpow_gt_0 radix2 1023) as B0.
  assert (FR : frow 2 (f_fill 2 (vals spread) 0%nat) = [dmax; dmax]).
  { unfold frow; cbn [seq map]. now rewrite !spread_fill. }
  assert (D : forall x, In x [dmax; dmax] -> dnn x /\ x < bpow radix2 1024).
  { intros x [<-|[<-|[]]]; (split; [split; [apply dmax_double|lra]|lra]). }
  pose proof (filled_row 2 spread 0%nat) as E. rewrite FR in E.
  destruct (xsum_fin _ _ (XS (xrow 2 (x_filled 2 spread 0%nat))) [dmax; dmax] E D) as [H|(r & _ & F & U)]; [exact H|exfalso].
  destruct (fsum_bounds _ _ F (fun x I => proj1 (D x I))) as [_ [L _]].
  pose proof (lo_ge 2) as Lo. cbn [length rsum] in L.
  assert (X : INR 2 * uu <= / 1000) by (rewrite uu_val; simpl; lra).
  assert (E2 : bpow radix2 1024 = 2 * bpow radix2 1023) by (change 1024%Z with (1 + 1023)%Z; rewrite bpow_plus; reflexivity).
  assert (DD : 999 / 1000 * bpow radix2 1024 <= dmax).
  { unfold dmax. assert (bpow radix2 971 <= bpow radix2 (-10) * bpow radix2 1024) by (rewrite <- bpow_plus; apply bpow_le; lia).
    assert (bpow radix2 (-10) <= / 1000) by (simpl; lra). pose proof big_pos. 
    assert (bpow radix2 (-10) * bpow radix2 1024 <= / 1000 * bpow radix2 1024) by (apply Rmult_le_compat_r; lra). lra. }
  assert (LL : 999 / 1000 * (dmax + (dmax + 0)) <= lo 2 * (dmax + (dmax + 0))) by (apply Rmult_le_compat_r; lra).
  pose proof big_pos. set (b := bpow radix2 1024) in *. clearbody b. lra.
Qed.
Theorem spread_rejected xs xs' : xsumming xs -> xsumming xs' -> ~ x_accepts xs' 2 (x_random_distribution xs 2 spread).
Proof.
  intros XS XS' C. apply (random_distribution_iff xs xs' 2 spread XS XS') with (i := 0%nat) in C.
  - apply C. now apply spread_sum.
  - lia.
  - simpl; lra.
  - apply spread_doubles.
  - lia.
Qed.

Lemma xseq_from l : forall l0 a, xsum l0 a -> xsum (l0 ++ l) (fold_left xadd l a).
Proof.
  induction l as [|x l IH]; intros l0 a H; cbn [fold_left].
  - now rewrite app_nil_r.
  - replace (l0 ++ x :: l) with ((l0 ++ [x]) ++ l) by (rewrite <- app_assoc; reflexivity).
    apply IH. apply (xs_add _ l0 [x]); [reflexivity|exact H|constructor].
Qed.
Lemma xseq_summing : xsumming xseq_sum.
Proof. intros l. apply (xseq_from l [] (XFin 0)). constructor. Qed.

Theorem one_infinite_accepted xs xs' n d : xsumming xs -> xsumming xs' -> (2 <= n)%nat -> INR n <= 1000000000 ->
  (forall i j, (i < n)%nat -> (j < n)%nat -> a_double (d i j)) ->
  (forall i, (i < n)%nat -> rsumn n (fun j => value_of (d i j)) <= bpow radix2 1023 \/
     exists j, (j < n)%nat /\ d i j = XPos /\
       rsumn n (fun l => if Nat.eqb l j then 0 else value_of (d i l)) <= bpow radix2 969) ->
  x_accepts xs' n (x_random_distribution xs n d).
Proof.
  intros XS XS' K N D B. apply finite_accepted; auto. intros i I.
  destruct (B i I) as [S|(j & J & E & S)]; [apply small_finite; [exact XS|lia|exact N|intros l L; now apply D|exact S]|].
  intros X. pose proof dmax_bounds as [M _]. pose proof (bpow_gt_0 radix2 1023) as B1.
  assert (V : value_of (d i j) = dmax) by now rewrite E.
  assert (NB : f_blank n (vals d i) = false).
  { destruct (f_blank n (vals d i)) eqn:Y; auto. apply (proj1 (blank_spec n (vals d i))) with (j := j) in Y; [|exact J].
    unfold vals in Y. lra. }
  assert (FR : frow n (f_fill n (vals d) i) = frow n (vals d i)).
  { unfold frow. apply map_ext. intros l. unfold f_fill. now rewrite NB. }
  destruct (in_split j (seq 0 n)) as (a & b & Es); [apply in_seq; lia|].
  assert (NJ : ~ In j (a ++ b)).
  { apply NoDup_remove_2. rewrite <- Es. apply seq_NoDup. }
  assert (PM : Permutation (frow n (vals d i)) (dmax :: map (vals d i) (a ++ b))).
  { unfold frow. rewrite Es, map_app. cbn [map]. unfold vals at 2. rewrite V. rewrite map_app. symmetry. apply Permutation_middle. }
  assert (T : rsum (map (vals d i) (a ++ b)) <= bpow radix2 969).
  { eapply Rle_trans; [|exact S]. unfold rsumn. rewrite Es.
    replace (rsum (map (vals d i) (a ++ b))) with
      (rsum (map (fun l => if Nat.eqb l j then 0 else value_of (d i l)) (a ++ b))).
    - rewrite !map_app, !rsum_app. cbn [map rsum]. rewrite Nat.eqb_refl. lra.
    - f_equal. apply map_ext_in. intros l L. destruct (Nat.eqb l j) eqn:Q; [|reflexivity].
      apply Nat.eqb_eq in Q. subst l. contradiction. }
  pose proof (xsum_one_big _ _ (XS (xrow n (x_filled n d i))) (frow n (f_fill n (vals d) i)) (filled_row n d i)) as G.
  rewrite FR in G. rewrite (G (fun x Ix => let '(ex_intro _ l (conj Hl Hx)) := in_frow _ _ _ Ix in
      eq_ind_r dnn (value_dnn _ (D i l I Hl)) Hx) ltac:(rewrite frow_length; exact N) _ PM T) in X. discriminate.
Qed.
