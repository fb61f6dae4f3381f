(** ExFloat: concrete chains in doubles. *)
From Coq Require Import Reals Lra Lia List ZArith Permutation.
From Flocq Require Import Core.
From Verif Require Import Fl M_Float S_Float L_Float1 L_Float2 L_Float3 L_Float4.
Import ListNotations.
Local Open Scope R_scope.

(** ** evaluating the rounding function *)
Lemma znearest_tie m : ZnearestE (IZR m + / 2) = (if Z.even m then m else m + 1)%Z.
Proof.
  unfold Znearest. rewrite (Zfloor_imp m) by (rewrite plus_IZR; lra).
  rewrite Rcompare_Eq by lra. rewrite (Zceil_imp (m + 1)).
  - destruct (Z.even m); reflexivity.
  - rewrite !minus_IZR, plus_IZR. lra.
Qed.
Lemma rnd_eval_tie x m e :
  (-1073 <= e)%Z -> bpow radix2 (e + 52) <= x < bpow radix2 (e + 53) ->
  x * bpow radix2 (- e) = IZR m + / 2 -> rnd x = IZR (if Z.even m then m else m + 1) * bpow radix2 e.
Proof.
  intros He Hx Hm. unfold rnd, round, F2R, scaled_mantissa, cexp; simpl Fnum; simpl Fexp.
  assert (M : mag radix2 x = (e + 53)%Z :> Z).
  { apply mag_unique_pos. replace (e + 53 - 1)%Z with (e + 52)%Z by lia. exact Hx. }
  rewrite M. assert (X : fexp64 (e + 53) = e) by (unfold fexp64, FLT_exp; lia). rewrite X.
  f_equal. f_equal. rewrite Hm. apply znearest_tie.
Qed.
(** side conditions on numerals *)
Ltac num := simpl; lra.
Ltac ev m e := rewrite (rnd_eval _ m e); [| lia | simpl; lra | simpl; apply Rabs_def1; lra].

Lemma r56 : rnd (56 / 100) = 5044031582654956 * / 9007199254740992.
Proof. ev 5044031582654956%Z (-53)%Z. reflexivity. Qed.
Lemma r34 : rnd (34 / 100) = 6124895493223875 * / 18014398509481984.
Proof. ev 6124895493223875%Z (-54)%Z. reflexivity. Qed.
Lemma r10 : rnd (10 / 100) = 7205759403792794 * / 72057594037927936.
Proof. ev 7205759403792794%Z (-56)%Z. reflexivity. Qed.
Lemma r40 : rnd (40 / 100) = 7205759403792794 * / 18014398509481984.
Proof. ev 7205759403792794%Z (-54)%Z. reflexivity. Qed.
Lemma r20 : rnd (20 / 100) = 7205759403792794 * / 36028797018963968.
Proof. ev 7205759403792794%Z (-55)%Z. reflexivity. Qed.
Lemma r70 : rnd (70 / 100) = 6305039478318694 * / 9007199254740992.
Proof. ev 6305039478318694%Z (-53)%Z. reflexivity. Qed.
Lemma r50 : rnd (50 / 100) = / 2.
Proof. replace (50 / 100) with (bpow radix2 (-1)) by (simpl; lra). rewrite rnd_id by (apply is_double_bpow; lia). reflexivity. Qed.

(** ** a probability above one: 0.56 + 0.34 + 0.10 *)
Lemma s90 : rnd (rnd (56 / 100) + rnd (34 / 100)) = 8106479329266894 * / 9007199254740992.
Proof.
  rewrite r56, r34. rewrite (rnd_eval_tie _ 8106479329266893 (-53)); [reflexivity|lia|simpl; lra|simpl; lra].
Qed.
Lemma s100 : rnd (rnd (rnd (56 / 100) + rnd (34 / 100)) + rnd (10 / 100)) = 4503599627370497 * / 4503599627370496.
Proof. rewrite s90, r10. ev 4503599627370497%Z (-52)%Z. reflexivity. Qed.

(** typed: 0 goes to 1, 2 and 3 with probabilities 0.56, 0.34 and 0.10; the others go to 3 *)
Definition pN : fmat := fun i j =>
  match i, j with
  | 0%nat, 1%nat => 56 / 100 | 0%nat, 2%nat => 34 / 100 | 0%nat, 3%nat => 10 / 100
  | 1%nat, 3%nat => 1 | 2%nat, 3%nat => 1 | 3%nat, 3%nat => 1
  | _, _ => 0
  end.
Definition dN : fmat := fun i j => rnd (pN i j).
Ltac cases4 i := destruct i as [|[|[|[|i]]]]; try lia.
Lemma pN_stochastic : stochasticR 4 pN.
Proof.
  split.
  - intros i j I J. cases4 i; cases4 j; simpl; lra.
  - intros i I. unfold rsumn. cases4 i; simpl; lra.
Qed.
Lemma dN_above : 1 < f_nth_order seq_dot 4 dN 2 0%nat 3%nat.
Proof.
  unfold f_nth_order, f_power, f_binpow, f_mul, seq_dot, dN. cbn [map seq fold_left fst snd pN].
  rewrite !rnd_0, !rnd_1, !Rmult_0_l, !Rmult_1_r, !rnd_0, !Rplus_0_r, !rnd_0, !Rplus_0_l.
  rewrite !(rnd_id (rnd (56 / 100))) by apply is_double_rnd.
  rewrite !(rnd_id (rnd (34 / 100))) by apply is_double_rnd.
  rewrite !(rnd_id (rnd (10 / 100))) by apply is_double_rnd.
  rewrite s100. lra.
Qed.

(** ** lumping [[0,.3,.7],[.1,.5,.4],[.1,.2,.7]] over {0},{1,2} *)
Definition pL : fmat := fun i j =>
  match i, j with
  | 0%nat, 1%nat => 30 / 100 | 0%nat, 2%nat => 70 / 100
  | 1%nat, 0%nat => 10 / 100 | 1%nat, 1%nat => 50 / 100 | 1%nat, 2%nat => 40 / 100
  | 2%nat, 0%nat => 10 / 100 | 2%nat, 1%nat => 20 / 100 | 2%nat, 2%nat => 70 / 100
  | _, _ => 0
  end.
Definition dL : fmat := fun i j => rnd (pL i j).
Definition blkL (j : nat) : nat := if Nat.eqb j 0 then 0%nat else 1%nat.
Ltac cases3 i := destruct i as [|[|[|i]]]; try lia.
Lemma pL_stochastic : stochasticR 3 pL.
Proof.
  split.
  - intros i j I J. cases3 i; cases3 j; simpl; lra.
  - intros i I. unfold rsumn. cases3 i; simpl; lra.
Qed.
Lemma pL_lumpable : lumpableR 3 pL blkL.
Proof.
  intros i i' b I I' E. unfold into, rsumn, blkL in *. cases3 i; cases3 i'; simpl in *; try easy; try lra;
    destruct b as [|[|b]]; simpl; lra.
Qed.
Lemma s54 : rnd (rnd (50 / 100) + rnd (40 / 100)) = 8106479329266893 * / 9007199254740992.
Proof. rewrite r50, r40. ev 8106479329266893%Z (-53)%Z. reflexivity. Qed.
Lemma s27 : rnd (rnd (20 / 100) + rnd (70 / 100)) = 8106479329266892 * / 9007199254740992.
Proof. rewrite r20, r70. rewrite (rnd_eval_tie _ 8106479329266892 (-53)); [reflexivity|lia|simpl; lra|simpl; lra]. Qed.

Lemma two_terms dt a b c : dotting dt -> is_double b -> is_double c -> b <> 0 -> c <> 0 ->
  dt [(a, 0); (b, 1); (c, 1)] = rnd (b + c).
Proof.
  intros D B C Nb Nc.
  assert (E : nz [(a, 0); (b, 1); (c, 1)] = [b; c]).
  { unfold nz, prods, nzb. cbn [map fst snd]. rewrite Rmult_0_r, !Rmult_1_r. cbn [filter].
    destruct (Req_EM_T 0 0); [|lra]. destruct (Req_EM_T b 0); [lra|]. destruct (Req_EM_T c 0); [lra|reflexivity]. }
  rewrite (fdot_two _ _ (D [(a, 0); (b, 1); (c, 1)])).
  - rewrite E. simpl. now rewrite Rplus_0_r.
  - unfold prods. cbn [map fst snd]. rewrite Rmult_0_r, !Rmult_1_r. intros x [<-|[<-|[<-|[]]]]; auto using is_double_0.
  - rewrite E. simpl. lia.
Qed.

Lemma dL_not_lumpable dt : dotting dt -> ~ f_lumpable dt 3 2 dL blkL.
Proof.
  intros D H. pose proof (H 1%nat 1%nat ltac:(lia) ltac:(lia)) as H1. pose proof (H 2%nat 1%nat ltac:(lia) ltac:(lia)) as H2.
  assert (E : f_lump_left dt 3 dL blkL 1%nat 1%nat = f_lump_left dt 3 dL blkL 2%nat 1%nat) by reflexivity.
  rewrite H1, H2 in E. unfold f_lump_right, f_mul, dL, f_ind in E. cbn [map seq blkL Nat.eqb pL] in E.
  pose proof r50 as A. pose proof r40 as B. pose proof r20 as C. pose proof r70 as F.
  rewrite !two_terms in E; auto using is_double_rnd; try lra.
  rewrite s54, s27 in E. lra.
Qed.

(** ** the star with six leaves: every leaf goes to the hub *)
Definition dS : fmat := fun i j =>
  match i with
  | 0%nat => rnd (if Nat.eqb j 0 then 0 else / 6)
  | _ => if Nat.eqb j 0 then 1 else 0
  end.
Definition blkS (j : nat) : nat := if Nat.eqb j 0 then 0%nat else 1%nat.
Lemma r6 : rnd (/ 6) = 6004799503160661 * / 36028797018963968.
Proof. ev 6004799503160661%Z (-55)%Z. reflexivity. Qed.
Definition a6 : R := 6004799503160661 * / 36028797018963968.
Lemma s6_2 : rnd (a6 + a6) = 6004799503160661 * / 18014398509481984.
Proof. unfold a6. ev 6004799503160661%Z (-54)%Z. reflexivity. Qed.
Lemma s6_3 : rnd (6004799503160661 * / 18014398509481984 + a6) = 4503599627370496 * / 9007199254740992.
Proof. unfold a6. rewrite (rnd_eval_tie _ 9007199254740991 (-54)); [simpl; lra|lia|simpl; lra|simpl; lra]. Qed.
Lemma s6_4 : rnd (4503599627370496 * / 9007199254740992 + a6) = 6004799503160661 * / 9007199254740992.
Proof. unfold a6. ev 6004799503160661%Z (-53)%Z. reflexivity. Qed.
Lemma s6_5 : rnd (6004799503160661 * / 9007199254740992 + a6) = 7505999378950826 * / 9007199254740992.
Proof. unfold a6. ev 7505999378950826%Z (-53)%Z. reflexivity. Qed.
Lemma s6_6 : rnd (7505999378950826 * / 9007199254740992 + a6) = 9007199254740991 * / 9007199254740992.
Proof. unfold a6. ev 9007199254740991%Z (-53)%Z. reflexivity. Qed.

Lemma dS_lumpable : lumpableR 7 dS blkS.
Proof.
  intros i i' b I I' E. apply rsumn_ext. intros j J. destruct (Nat.eqb (blkS j) b); auto.
  destruct i as [|i], i' as [|i']; unfold blkS in E; simpl in E; try easy.
Qed.
Lemma a6_double : is_double a6.
Proof. unfold a6. rewrite <- r6. apply is_double_rnd. Qed.
Lemma dS_left : f_mul seq_dot 7 (f_rk 7 blkS) dS 1%nat 0%nat = 9007199254740991 * / 9007199254740992.
Proof.
  unfold f_mul, seq_dot, f_rk, blk_size. cbn [map seq fold_left fst snd dS Nat.eqb blkS filter length].
  replace (INR 6) with 6 by (simpl; lra). rewrite r6. fold a6.
  rewrite !Rmult_0_l, !rnd_0, !Rmult_1_r, !Rplus_0_r, !rnd_0, !Rplus_0_l.
  rewrite !(rnd_id a6) by apply a6_double.
  rewrite s6_2, s6_3, s6_4, s6_5, s6_6. reflexivity.
Qed.

Lemma dS_not_lumpable : ~ f_lumpable seq_dot 7 2 dS blkS.
Proof.
  intros H. specialize (H 1%nat 0%nat ltac:(lia) ltac:(lia)).
  unfold f_lump_left, f_lump_right in H.
  assert (Rt : f_mul seq_dot 7 dS (f_ind blkS) 1%nat 0%nat = 1).
  { unfold f_mul, seq_dot, f_ind. cbn [map seq fold_left fst snd dS Nat.eqb blkS].
    rewrite !Rmult_0_l, !Rmult_1_l, !rnd_0, !rnd_1, !Rplus_0_l, !rnd_1, !Rplus_0_r, !rnd_1. reflexivity. }
  rewrite Rt in H.
  set (A := f_mul seq_dot 7 (f_rk 7 blkS) dS) in *.
  assert (L : f_mul seq_dot 7 A (f_ind blkS) 1%nat 0%nat = A 1%nat 0%nat).
  { unfold f_mul at 1, seq_dot, f_ind. cbn [map seq fold_left fst snd Nat.eqb blkS].
    rewrite !Rmult_0_r, !Rmult_1_r, !rnd_0, !Rplus_0_l, !Rplus_0_r.
    assert (F : is_double (A 1%nat 0%nat)) by (unfold A; rewrite dS_left, <- s6_6; apply is_double_rnd).
    rewrite !(rnd_id (A 1%nat 0%nat)) by exact F. reflexivity. }
  rewrite L in H. unfold A in H. rewrite dS_left in H. lra.
Qed.

(** ** is_regular: ten states, equal probabilities of going to each other state, typed with six decimals *)
Definition pR : fmat := fun i j => if Nat.eqb i j then 0 else rnd (111111 / 1000000).
Lemma r11 : 111110999 / 1000000000 <= rnd (111111 / 1000000) <= 111111001 / 1000000000.
Proof.
  pose proof uu_val. pose proof tiny_uu. pose proof tiny_pos.
  pose proof (rnd_0_lo (111111 / 1000000) ltac:(lra)). pose proof (rnd_0_up (111111 / 1000000) ltac:(lra)). lra.
Qed.
Lemma pR_nn : nnm 10 pR.
Proof. intros i j _ _. unfold pR. destruct (Nat.eqb i j); [lra|]. pose proof r11; lra. Qed.
Lemma pR_sum i : (i < 10)%nat -> rsumn 10 (pR i) = 9 * rnd (111111 / 1000000).
Proof.
  intros I. rewrite (rsumn_ext 10 _ (fun j => rnd (111111 / 1000000) + - rnd (111111 / 1000000) * eye i j)).
  - rewrite rsumn_add, rsumn_const, rsumn_scal, eye_sum by exact I. simpl INR. lra.
  - intros j J. unfold pR, eye. destruct (Nat.eqb i j); ring.
Qed.
Lemma pR_accepted sm : summing sm -> f_accepts sm 10 pR.
Proof.
  intros S. pose proof r11 as B. split; [lia|]. split.
  - intros i j I J. split; [unfold pR; destruct (Nat.eqb i j); auto using is_double_0, is_double_rnd|].
    unfold pR; destruct (Nat.eqb i j); lra.
  - intros i I.
    assert (Dn : forall j, (j < 10)%nat -> dnn (pR i j)).
    { intros j J. split; [unfold pR; destruct (Nat.eqb i j); auto using is_double_0, is_double_rnd|]. now apply pR_nn. }
    destruct (row_bounds sm 10 (pR i) S Dn) as [[F _] [L U]].
    rewrite pR_sum in L, U by exact I. apply close_in; [exact F|].
    set (v := sm _) in *. clearbody v.
    assert (E10 : INR 10 = 10) by (simpl; lra).
    pose proof uu_val as UV. pose proof (lo_ge 10) as LG. pose proof (hi_le 10) as HL. rewrite E10, UV in *. specialize (HL ltac:(lra)).
    pose proof (hi_pos 10). pose proof (lo_pos 10). apply Rabs_le. split; nra.
Qed.
Lemma pR_regular i j : (i < 10)%nat -> (j < 10)%nat -> 0 < steps 10 pR 2 i j.
Proof.
  intros I J. pose proof r11 as B.
  assert (X : exists l, (l < 10)%nat /\ l <> i /\ l <> j).
  { destruct (Nat.eq_dec i 0); destruct (Nat.eq_dec j 0); destruct (Nat.eq_dec i 1); destruct (Nat.eq_dec j 1);
    try (exists 0%nat; lia); try (exists 1%nat; lia); try (exists 2%nat; lia). }
  destruct X as (l & L & Li & Lj). change (steps 10 pR 2 i j) with (steps 10 pR (1 + 1) i j). rewrite steps_add by auto.
  apply (rsumn_pos _ _ l); auto.
  - intros x Hx. apply Rmult_le_pos; apply steps_nonneg; auto using pR_nn.
  - rewrite !steps_1 by auto. unfold pR.
    destruct (Nat.eqb_spec i l); [lia|]. destruct (Nat.eqb_spec l j); [lia|]. apply Rmult_lt_0_compat; lra.
Qed.

(** the squares of 1 - 2^-20 *)
Fixpoint qq (m : nat) : R := match m with O => 1 - / 1048576 | S m => qq m * qq m end.
Lemma qq_pos m : 0 < qq m.
Proof. induction m; simpl; [lra|]. now apply Rmult_lt_0_compat. Qed.
Lemma qq_le1 m : qq m <= 1.
Proof. induction m; simpl; [lra|]. pose proof (qq_pos m). nra. Qed.
Lemma qq_lower m : 1 - 2 ^ m * / 1048576 <= qq m.
Proof.
  induction m as [|m IH]; [simpl; lra|]. cbn [qq pow]. pose proof (qq_pos m). pose proof (qq_le1 m).
  assert (0 <= (1 - qq m) * (1 - qq m)) by nra. lra.
Qed.
Lemma qq_low_sq m e : bpow radix2 e <= qq m -> bpow radix2 (e + e) <= qq (S m).
Proof. intros H. rewrite bpow_plus. cbn [qq]. pose proof (bpow_ge_0 radix2 e). apply Rmult_le_compat; auto. Qed.
Lemma qq_lower' m x y : x = 2 ^ m * / 1048576 -> y <= 1 - x -> y <= qq m.
Proof. intros E K. pose proof (qq_lower m) as L. rewrite <- E in L. lra. Qed.
Lemma qq_29_lower : bpow radix2 (-1024) <= qq 29.
Proof.
  assert (H : bpow radix2 (-1) <= qq 19) by (apply (qq_lower' 19 (/ 2)); [simpl; lra|simpl; lra]).
  do 10 apply qq_low_sq in H. exact H.
Qed.
Lemma qq_anti m k : qq (m + k) <= qq m.
Proof. induction k as [|k IH]; [rewrite Nat.add_0_r; lra|]. rewrite Nat.add_succ_r. cbn [qq]. pose proof (qq_pos (m + k)). pose proof (qq_le1 (m + k)). nra. Qed.
Lemma qq_low m : (m <= 29)%nat -> bpow radix2 (-1024) <= qq m.
Proof. intros H. eapply Rle_trans; [apply qq_29_lower|]. replace 29%nat with (m + (29 - m))%nat by lia. apply qq_anti. Qed.
Lemma qq_upper m : qq m * (1 + 2 ^ m * / 1048576) <= 1.
Proof.
  induction m as [|m IH]; [simpl; lra|]. cbn [qq pow]. pose proof (qq_pos m) as P.
  assert (T : 0 < 2 ^ m) by (apply pow_lt; lra). set (x := 2 ^ m * / 1048576) in *.
  assert (0 < x) by (unfold x; lra). replace (2 * 2 ^ m * / 1048576) with (2 * x) by (unfold x; ring).
  assert (A : (qq m * (1 + x)) * (qq m * (1 + x)) <= 1 * 1).
  { apply Rmult_le_compat; auto; apply Rmult_le_pos; lra. }
  assert (0 <= qq m * qq m * (x * x)) by (apply Rmult_le_pos; nra). nra.
Qed.
Lemma qq_up_sq m e : qq m <= bpow radix2 e -> qq (S m) <= bpow radix2 (e + e).
Proof. intros H. rewrite bpow_plus. cbn [qq]. pose proof (qq_pos m). apply Rmult_le_compat; lra. Qed.
Lemma qq_sq m x y : qq m <= x -> x * x <= y -> qq (S m) <= y.
Proof. intros H K. cbn [qq]. pose proof (qq_pos m). eapply Rle_trans; [apply Rmult_le_compat; [| |exact H|exact H]; lra|exact K]. Qed.
Lemma qq_inv m x y : 0 < x -> x = 2 ^ m * / 1048576 -> 1 <= y * (1 + x) -> qq m <= y.
Proof. intros X E K. pose proof (qq_upper m) as U. rewrite <- E in U. apply (Rmult_le_reg_r (1 + x)); lra. Qed.
Lemma qq_29_upper : qq 29 <= bpow radix2 (-640).
Proof.
  assert (H17 : qq 17 <= 8 / 9).
  { apply (qq_inv 17 (/ 8)); [lra|simpl; lra|lra]. }
  assert (H18 : qq 18 <= 64 / 81) by (apply (qq_sq 17 (8 / 9)); [exact H17|lra]).
  assert (H19 : qq 19 <= 625 / 1000) by (apply (qq_sq 18 (64 / 81)); [exact H18|lra]).
  assert (H20 : qq 20 <= 391 / 1000) by (apply (qq_sq 19 (625 / 1000)); [exact H19|lra]).
  assert (H21 : qq 21 <= 153 / 1000) by (apply (qq_sq 20 (391 / 1000)); [exact H20|lra]).
  assert (H : qq 22 <= bpow radix2 (-5)) by (apply (qq_sq 21 (153 / 1000)); [exact H21|simpl; lra]).
  do 7 apply qq_up_sq in H. exact H.
Qed.

Section Under.
  Variable dt : list (R * R) -> R.
  Hypothesis D : dotting dt.
  Fixpoint zz (m : nat) : fmat := match m with O => pR | S m => f_mul dt 10 (zz m) (zz m) end.
  Lemma zz_nn m : nnm 10 (zz m).
  Proof. induction m; simpl; auto using pR_nn, mul_nonneg. Qed.
  Lemma zz_rows m : (m <= 29)%nat -> forall i, (i < 10)%nat -> rsumn 10 (zz m i) * (1 + / 1099511627776) <= qq m.
  Proof.
    induction m as [|m IH]; intros M i I.
    - cbn [zz qq]. rewrite pR_sum by exact I. pose proof r11. lra.
    - specialize (IH ltac:(lia)). pose proof (qq_low (S m) M) as QL.
      set (kk := 1 + / 1099511627776) in *. set (a := qq m / kk).
      assert (K : 1 < kk) by (unfold kk; lra). pose proof (qq_pos m) as Q0.
      assert (A0 : 0 < a) by (unfold a, Rdiv; apply Rmult_lt_0_compat; [lra|apply Rinv_0_lt_compat; lra]).
      assert (R : forall i, (i < 10)%nat -> rsumn 10 (zz m i) <= a).
      { intros i0 I0. apply (Rmult_le_reg_r kk); [lra|]. unfold a, Rdiv. rewrite Rmult_assoc, Rinv_l, Rmult_1_r by lra. now apply IH. }
      pose proof (mul_row_up dt 10 (zz m) (zz m) i a a D (zz_nn m) (zz_nn m) I (R i I) ltac:(lra) R) as U.
      cbn [zz]. set (s := rsumn 10 (f_mul dt 10 (zz m) (zz m) i)) in *. clearbody s.
      assert (E10 : INR 10 = 10) by (simpl; lra). pose proof (hi_le 10) as H. rewrite E10, uu_val in *. specialize (H ltac:(lra)).
      assert (T : 10 * (10 * tiny) <= qq (S m) * / 4000000000000).
      { apply (Rle_trans _ (bpow radix2 (-1024) * / 4000000000000)); [|apply Rmult_le_compat_r; lra].
        unfold tiny. replace (-1075)%Z with (-1024 + -51)%Z by lia. rewrite bpow_plus.
        change (bpow radix2 (-51)) with (/ 2251799813685248). pose proof (bpow_gt_0 radix2 (-1024)). 
        generalize dependent (bpow radix2 (-1024)). intros b. intros. lra. }
      assert (EA : a * a = qq (S m) * / kk * / kk) by (unfold a; cbn [qq]; field; lra).
      set (Q := qq (S m)) in *. assert (QP : 0 < Q) by apply qq_pos. clearbody Q.
      set (w := 10 * (10 * tiny)) in *. assert (W0 : 0 < w) by (unfold w; pose proof tiny_pos; lra). clearbody w.
      rewrite EA in U. pose proof (hi_pos 10) as HP. set (h := hi 10) in *. clearbody h.
      assert (ik : / kk <= 1 - / 1200000000000).
      { apply (Rmult_le_reg_r kk); [lra|]. rewrite Rinv_l by lra. unfold kk. lra. }
      assert (ik0 : 0 < / kk) by (apply Rinv_0_lt_compat; lra).
      apply (Rle_trans _ (h * (Q * / kk * / kk + w) * kk)); [apply Rmult_le_compat_r; lra|].
      replace (h * (Q * / kk * / kk + w) * kk) with (h * (Q * / kk + w * kk)) by (field; lra).
      assert (X1 : Q * / kk <= Q * (1 - / 1200000000000)) by (apply Rmult_le_compat_l; lra).
      assert (X2 : w * kk <= Q * / 3000000000000).
      { apply (Rle_trans _ (Q * / 4000000000000 * kk)); [apply Rmult_le_compat_r; lra|].
        rewrite Rmult_assoc. apply Rmult_le_compat_l; [lra|]. unfold kk; lra. }
      apply (Rle_trans _ ((1 + 2 * (10 * / 9007199254740992)) * (Q * (1 - / 1200000000000) + Q * / 3000000000000))).
      + apply Rmult_le_compat; try lra.
        apply Rplus_le_le_0_compat; apply Rmult_le_pos; lra.
      + lra.
  Qed.

  Lemma zz_small m x : (m <= 29)%nat -> qq m <= x -> forall i, (i < 10)%nat -> rsumn 10 (zz m i) <= x.
  Proof.
    intros M H i I. pose proof (zz_rows m M i I) as Z.
    assert (0 <= rsumn 10 (zz m i)) by (apply rsumn_nonneg; intros; now apply zz_nn). lra.
  Qed.
  Definition zero10 (a : fmat) : Prop := forall i j, (i < 10)%nat -> (j < 10)%nat -> a i j = 0.
  Lemma small_sq z : nnm 10 z -> (forall i, (i < 10)%nat -> rsumn 10 (z i) <= bpow radix2 (-640)) -> zero10 (f_mul dt 10 z z).
  Proof.
    intros NN B i j I J. apply mul_zero; auto.
    apply (Rle_lt_trans _ (rsumn 10 (fun l => bpow radix2 (-640) * z i l))).
    - apply rsumn_le. intros l L. rewrite Rmult_comm. apply Rmult_le_compat_r; [now apply NN|].
      eapply Rle_trans; [|apply (B l L)]. apply (rsumn_in 10 (z l)); auto.
    - rewrite rsumn_scal. apply (Rle_lt_trans _ (bpow radix2 (-640) * bpow radix2 (-640))).
      + apply Rmult_le_compat_l; [apply bpow_ge_0|auto].
      + rewrite <- bpow_plus. apply bpow_lt. lia.
  Qed.
  Lemma zz_zero m : (m <= 29)%nat -> qq m <= bpow radix2 (-640) -> zero10 (zz (S m)).
  Proof. intros M H. cbn [zz]. apply small_sq; [apply zz_nn|]. now apply zz_small. Qed.
  Lemma zz_30 : zero10 (zz 30).
  Proof. exact (zz_zero 29 (le_n 29) qq_29_upper). Qed.
  Lemma mul_zero10 a z : nnm 10 a -> zero10 z -> zero10 (f_mul dt 10 a z).
  Proof.
    intros A Z i j I J. apply mul_zero; auto.
    - intros x y X Y. rewrite Z by auto. lra.
    - rewrite rsumn_zero by (intros; rewrite Z by auto; ring). apply tiny_pos.
  Qed.
  Fixpoint sqs (m : nat) (z : fmat) : fmat := match m with O => z | S m => sqs m (f_mul dt 10 z z) end.
  Lemma binpow_zero k : forall m z r, (m <= Pos.size_nat k - 1)%nat -> nnm 10 z ->
    (match r with None => True | Some r => nnm 10 r end) ->
    zero10 (sqs m z) -> zero10 (f_binpow dt 10 z r k).
  Proof.
    induction k as [k IH|k IH|]; intros m z r M NZ NR H.
    - cbn [f_binpow]. apply (IH (m - 1)%nat); [simpl in M; lia|auto using mul_nonneg|destruct r; auto using mul_nonneg|].
      destruct m as [|m]; [now apply mul_zero10|]. replace (S m - 1)%nat with m by lia.
      exact H.
    - cbn [f_binpow]. apply (IH (m - 1)%nat); [simpl in M; lia|auto using mul_nonneg|exact NR|].
      destruct m as [|m]; [now apply mul_zero10|]. replace (S m - 1)%nat with m by lia.
      exact H.
    - simpl in M. replace m with 0%nat in H by lia. cbn [f_binpow]. simpl in H. destruct r; [now apply mul_zero10|exact H].
  Qed.
  Lemma sqs_S m : forall z, sqs (S m) z = f_mul dt 10 (sqs m z) (sqs m z).
  Proof. induction m as [|m IH]; intros z; [reflexivity|]. cbn [sqs] in *. apply IH. Qed.
  Lemma iter_zz m : sqs m pR = zz m.
  Proof. induction m as [|m IH]; [reflexivity|]. rewrite sqs_S, IH. reflexivity. Qed.

  Lemma pR_not_regular : ~ f_is_regular dt 10 0 pR.
  Proof.
    intros H. specialize (H 0%nat 1%nat ltac:(lia) ltac:(lia)).
    assert (E : Z.to_pos (regular_exponent 10 0) = 9999999982%positive) by reflexivity. rewrite E in H.
    assert (Z : zero10 (f_power dt 10 pR 9999999982)).
    { unfold f_power. apply (binpow_zero 9999999982 30 pR None); [simpl; lia|apply pR_nn|exact I|].
      rewrite iter_zz. apply zz_30. }
    rewrite (Z 0%nat 1%nat) in H by lia. lra.
  Qed.
End Under.

(** ** the statements used in P_Float *)
Lemma nth_order_rejected : stochasticR 4 pN /\ dN = (fun i j => rnd (pN i j)) /\
  1 < f_nth_order seq_dot 4 dN 2 0%nat 3%nat /\
  forall sm, ~ f_accepts sm 4 (f_nth_order seq_dot 4 dN 2).
Proof.
  split; [exact pN_stochastic|]. split; [reflexivity|]. split; [exact dN_above|].
  intros sm (_ & H & _). pose proof dN_above as A.
  destruct (H 0%nat 3%nat ltac:(lia) ltac:(lia)) as [_ [_ B]]. lra.
Qed.
Lemma nth_order_rows dt n p e k : dotting dt -> INR n <= 1000000000 -> 0 <= e <= 1 ->
  (forall i j, (i < n)%nat -> (j < n)%nat -> 0 <= p i j) ->
  (forall i, (i < n)%nat -> Rabs (rsumn n (p i) - 1) <= e) ->
  INR (Pos.to_nat k) * (e + 4 * (INR (S n) * uu)) <= / 2 ->
  (forall i j, (i < n)%nat -> (j < n)%nat -> 0 <= f_nth_order dt n p k i j) /\
  (forall i, (i < n)%nat -> Rabs (rsumn n (f_nth_order dt n p k i) - 1) <= 2 * (INR (Pos.to_nat k) * (e + 4 * (INR (S n) * uu)))).
Proof.
  intros D N E P RS K. pose proof (power_pw dt n p k) as PW. split.
  - exact (pw_nonneg _ _ _ _ _ D P PW).
  - exact (pw_close dt n p e D N P E RS _ _ PW K).
Qed.
Lemma regular_underflow sm dt : summing sm -> dotting dt ->
  f_accepts sm 10 pR /\ (forall i, (i < 10)%nat -> pR i i = 0) /\
  (forall i j, (i < 10)%nat -> (j < 10)%nat -> 0 < steps 10 pR 2 i j) /\
  ~ f_is_regular dt 10 0 pR.
Proof.
  intros S D. split; [now apply pR_accepted|]. split; [|split; [exact pR_regular|now apply pR_not_regular]].
  intros i _. unfold pR. now rewrite Nat.eqb_refl.
Qed.
Lemma lump_rejected : stochasticR 3 pL /\ lumpableR 3 pL blkL /\ dL = (fun i j => rnd (pL i j)) /\
  forall dt, dotting dt -> ~ f_lumpable dt 3 2 dL blkL.
Proof. split; [exact pL_stochastic|]. split; [exact pL_lumpable|]. split; [reflexivity|exact dL_not_lumpable]. Qed.
Lemma lumped_nearly dt n m p blk : dotting dt -> INR n <= 1000000000 ->
  (forall i j, (i < n)%nat -> (j < n)%nat -> 0 <= p i j) ->
  (forall i, (i < n)%nat -> rsumn n (p i) <= 2) -> f_lumpable dt n m p blk ->
  forall i i' b, (i < n)%nat -> (i' < n)%nat -> blk i = blk i' -> (b < m)%nat ->
  Rabs (into n p blk i b - into n p blk i' b) <= 32 * (INR n * uu).
Proof. intros D N P RS OK. exact (nearly_lumpable dt n m p blk D N P RS OK). Qed.
Lemma dL_sizes : (forall i j, (i < 3)%nat -> (j < 3)%nat -> 0 < dL i j -> bpow radix2 (- Z.of_nat 4) <= dL i j) /\
  (Z.of_nat 4 * regular_exponent 3 2 <= 1074)%Z /\ (0 < regular_exponent 3 2)%Z.
Proof.
  split; [|split; reflexivity || discriminate].
  assert (B : is_double (bpow radix2 (- Z.of_nat 4))) by (apply is_double_bpow; lia).
  assert (V : bpow radix2 (- Z.of_nat 4) = / 16) by (simpl; lra). rewrite V in *.
  intros i j I J. unfold dL. cases3 i; cases3 j; cbn [pL]; intros L; try (rewrite rnd_0 in L; lra);
    rewrite <- (rnd_id _ B); apply rnd_le; lra.
Qed.

(** a chain that is lumped on every machine *)
Definition pH : fmat := fun i j =>
  match i, j with
  | 0%nat, 0%nat => 0 | 0%nat, _ => / 2
  | 1%nat, 2%nat => 0 | 2%nat, 1%nat => 0
  | _, _ => / 2
  end.
Lemma two_of_three dt x y z : dotting dt ->
  is_double (fst x * snd x) -> is_double (fst y * snd y) -> is_double (fst z * snd z) ->
  fst x * snd x = 0 \/ fst y * snd y = 0 \/ fst z * snd z = 0 ->
  dt [x; y; z] = rnd (fst x * snd x + fst y * snd y + fst z * snd z).
Proof.
  intros D X Y Z O. rewrite (fdot_two _ _ (D [x; y; z])).
  - f_equal. unfold nz, prods, nzb. cbn [map filter].
    destruct (Req_EM_T (fst x * snd x) 0), (Req_EM_T (fst y * snd y) 0), (Req_EM_T (fst z * snd z) 0); cbn [rsum]; lra.
  - cbn [prods map]. intros v [<-|[<-|[<-|[]]]]; auto.
  - unfold nz, prods, nzb. cbn [map filter].
    destruct (Req_EM_T (fst x * snd x) 0), (Req_EM_T (fst y * snd y) 0), (Req_EM_T (fst z * snd z) 0); simpl; try lia; lra.
Qed.
Lemma dy_half : is_double (/ 2).
Proof. replace (/ 2) with (bpow radix2 (-1)) by (simpl; lra). apply is_double_bpow; lia. Qed.
Lemma dy_quarter : is_double (/ 4).
Proof. replace (/ 4) with (bpow radix2 (-2)) by (simpl; lra). apply is_double_bpow; lia. Qed.
Ltac dy := match goal with |- is_double ?x =>
    first [ replace x with 0 by lra; apply is_double_0 | replace x with 1 by lra; apply is_double_1
          | replace x with (/ 2) by lra; apply dy_half | replace x with (/ 4) by lra; apply dy_quarter ] end.
Ltac tw D := rewrite two_of_three; cbn [fst snd]; [|exact D|dy|dy|dy|lra]; rewrite rnd_id by dy; lra.
Section Half.
  Variable dt : list (R * R) -> R.
  Hypothesis D : dotting dt.
  Lemma rkH i l : (i < 3)%nat -> (l < 3)%nat -> f_rk 3 blkL i l =
    (if Nat.eqb i 0 then (if Nat.eqb l 0 then 1 else 0) else (if Nat.eqb l 0 then 0 else / 2)).
  Proof.
    intros I L. unfold f_rk, blk_size, blkL. cases3 i; cases3 l; cbn -[Rinv]; try reflexivity;
      rewrite rnd_id; simpl; try lra; dy.
  Qed.
  Lemma rkpH i j : (i < 3)%nat -> (j < 3)%nat -> f_mul dt 3 (f_rk 3 blkL) pH i j =
    (if Nat.eqb i 0 then (if Nat.eqb j 0 then 0 else / 2) else (if Nat.eqb j 0 then / 2 else / 4)).
  Proof.
    intros I J. unfold f_mul. cbn [map seq]. rewrite !rkH by lia. cases3 i; cases3 j; cbn [Nat.eqb pH]; tw D.
  Qed.
  Lemma pH_lumped : f_lumpable dt 3 2 pH blkL.
  Proof.
    intros i b I B. transitivity (if Nat.eqb i 0 then (if Nat.eqb b 0 then 0 else 1) else / 2); [|symmetry].
    - unfold f_lump_left, f_mul at 1. cbn [map seq]. rewrite !rkpH by lia. unfold f_ind, blkL.
      cases3 i; destruct b as [|[|b]]; try lia; cbn [Nat.eqb]; tw D.
    - unfold f_lump_right, f_mul. cbn [map seq]. unfold f_ind, blkL.
      cases3 i; destruct b as [|[|b]]; try lia; cbn [Nat.eqb pH]; tw D.
  Qed.
End Half.
Lemma lumped_example : exists p, (forall i, (i < 3)%nat -> rsumn 3 (p i) = 1) /\ p 1%nat 1%nat <> p 2%nat 1%nat /\
  forall dt, dotting dt -> f_lumpable dt 3 2 p blkL.
Proof.
  exists pH. split; [|split; [|exact pH_lumped]].
  - intros i I. unfold rsumn. cases3 i; simpl; lra.
  - simpl; lra.
Qed.
