(** L_FloatMoran: the Moran model and the gambler's ruin in doubles. *)
From Coq Require Import Reals Lra Lia List ZArith Bool.
From Flocq Require Import Core.
From Verif Require Import Fl M_Float S_Float L_Float1 L_Float2 L_Float3 M_FloatNorm S_FloatNorm L_FloatNorm L_FloatRed M_FloatBirth L_FloatBirth
  M_FloatMoran S_FloatMoran.
Import ListNotations.
Local Open Scope R_scope.

Definition e16 : R := 12 / 100000000000000000.
Lemma rb x B : Rabs x <= B -> Rabs (rnd x - x) <= (B + 1) * e16.
Proof.
  intros H. pose proof (rnd_err x) as E. pose proof tiny_small as T. pose proof uu_pos as UP. pose proof (Rabs_pos x) as P.
  assert (U : uu <= e16) by (rewrite uu_val; unfold e16; lra). assert (E0 : 0 < e16) by (unfold e16; lra).
  assert (uu * Rabs x <= e16 * B) by (apply Rmult_le_compat; lra). lra.
Qed.
Lemma double_small k : (k <= 2000)%nat -> is_double (INR k).
Proof.
  intros K. rewrite INR_IZR_INZ. apply generic_format_FLT. apply (FLT_spec radix2 (-1074) 53 (IZR (Z.of_nat k)) (Float radix2 (Z.of_nat k) 0)).
  - unfold F2R; simpl. lra.
  - simpl. lia.
  - simpl. lia.
Qed.

(** one of the two fractions: weights R and y, shares a and b of them *)
Lemma fraction x y R0 R1 a b a' b' :
  1 <= x <= 499 -> 1 <= y <= 499 -> is_double y -> 0 <= R0 <= 2 * x -> 0 <= R1 <= 2 * x -> Rabs (R1 - R0) <= 4000 * e16 ->
  0 <= a <= 1 -> 0 <= b <= 1 -> 0 <= a' <= 1 -> 0 <= b' <= 1 -> Rabs (a' - a) <= 2 * e16 -> Rabs (b' - b) <= 2 * e16 ->
  a + b <= 2 ->
  R0 * a + y * b <= R0 + y ->
  let z := rnd (rnd (rnd (R1 * a') + rnd (y * b')) / rnd (R1 + y)) in
  0 <= z /\ Rabs (z - (R0 * a + y * b) / (R0 + y)) <= 30000 * e16.
Proof.
  intros X Y Dy R0b R1b Rn A B A' B' An Bn _ LE z. assert (E0 : 0 < e16 <= / 1000000000000000) by (unfold e16; lra).
  assert (P1 : 0 <= R1 * a' <= 998) by nra. assert (P2 : 0 <= y * b' <= 499) by nra.
  pose proof (rb (R1 * a') 998 ltac:(rewrite Rabs_pos_eq; lra)) as E1. pose proof (rb (y * b') 499 ltac:(rewrite Rabs_pos_eq; lra)) as E2.
  pose proof (rnd_nonneg _ (proj1 P1)) as N1. pose proof (rnd_nonneg _ (proj1 P2)) as N2.
  set (t1 := rnd (R1 * a')) in *. set (t2 := rnd (y * b')) in *. apply Rabs_le_inv in E1. apply Rabs_le_inv in E2.
  pose proof (rb (t1 + t2) 1498 ltac:(rewrite Rabs_pos_eq; lra)) as E3. pose proof (rnd_nonneg (t1 + t2) ltac:(lra)) as N3.
  pose proof (rb (R1 + y) 1497 ltac:(rewrite Rabs_pos_eq; lra)) as E4.
  assert (D1 : y <= rnd (R1 + y)) by (rewrite <- (rnd_id y Dy) at 1; apply rnd_le; lra).
  set (nu := rnd (t1 + t2)) in *. set (de := rnd (R1 + y)) in *. apply Rabs_le_inv in E3. apply Rabs_le_inv in E4.
  assert (NE : Rabs (nu - (R0 * a + y * b)) <= 10000 * e16).
  { assert (F1 : Rabs (R1 * a' - R0 * a) <= 6000 * e16).
    { replace (R1 * a' - R0 * a) with ((R1 - R0) * a' + R0 * (a' - a)) by ring. eapply Rle_trans; [apply Rabs_triang|].
      rewrite !Rabs_mult, (Rabs_pos_eq a'), (Rabs_pos_eq R0) by lra.
      assert (Rabs (R1 - R0) * a' <= 4000 * e16 * 1) by (apply Rmult_le_compat; [apply Rabs_pos|lra|lra|lra]).
      assert (R0 * Rabs (a' - a) <= 998 * (2 * e16)) by (apply Rmult_le_compat; [lra|apply Rabs_pos|lra|lra]). lra. }
    assert (F2 : Rabs (y * b' - y * b) <= 1000 * e16).
    { replace (y * b' - y * b) with (y * (b' - b)) by ring. rewrite Rabs_mult, (Rabs_pos_eq y) by lra.
      assert (y * Rabs (b' - b) <= 499 * (2 * e16)) by (apply Rmult_le_compat; [lra|apply Rabs_pos|lra|lra]). lra. }
    apply Rabs_le_inv in F1. apply Rabs_le_inv in F2. apply Rabs_le. lra. }
  assert (DE : Rabs (de - (R0 + y)) <= 6000 * e16).
  { apply Rabs_le_inv in Rn. apply Rabs_le. lra. }
  set (ne := R0 * a + y * b) in *. set (dd := R0 + y) in *.
  assert (NE0 : 0 <= ne) by (unfold ne; nra). assert (DD : 1 <= dd) by (unfold dd; lra).
  unfold z. fold nu de. clearbody nu de t1 t2 ne dd. 
  assert (Q0 : 0 <= nu / de) by (apply Rmult_le_pos; [lra|left; apply Rinv_0_lt_compat; lra]).
  assert (QE : Rabs (nu / de - ne / dd) <= 16000 * e16).
  { replace (nu / de - ne / dd) with (((nu - ne) - (ne / dd) * (de - dd)) / de) by (field; lra).
    unfold Rdiv at 1. rewrite Rabs_mult, (Rabs_pos_eq (/ de)) by (left; apply Rinv_0_lt_compat; lra).
    assert (I1 : / de <= 1) by (rewrite <- Rinv_1; apply Rinv_le_contravar; lra).
    assert (I0 : 0 < / de) by (apply Rinv_0_lt_compat; lra).
    assert (H0 : 0 <= ne / dd) by (apply Rmult_le_pos; [lra|left; apply Rinv_0_lt_compat; lra]).
    assert (H1 : ne / dd <= 1) by (apply (Rmult_le_reg_r dd); [lra|]; unfold Rdiv; rewrite Rmult_assoc, Rinv_l by lra; lra).
    assert (G : Rabs ((nu - ne) - ne / dd * (de - dd)) <= 16000 * e16).
    { unfold Rminus at 1. eapply Rle_trans; [apply Rabs_triang|]. rewrite Rabs_Ropp, Rabs_mult, (Rabs_pos_eq (ne / dd)) by exact H0.
      assert (ne / dd * Rabs (de - dd) <= 1 * (6000 * e16)) by (apply Rmult_le_compat; [exact H0|apply Rabs_pos|exact H1|exact DE]). lra. }
    apply Rle_trans with (16000 * e16 * 1); [|lra]. apply Rmult_le_compat; [apply Rabs_pos|lra|exact G|exact I1]. }
  assert (H1 : ne / dd <= 1) by (apply (Rmult_le_reg_r dd); [lra|]; unfold Rdiv; rewrite Rmult_assoc, Rinv_l by lra; lra).
  apply Rabs_le_inv in QE.
  pose proof (rb (nu / de) 2 ltac:(rewrite Rabs_pos_eq; lra)) as E5. apply Rabs_le_inv in E5.
  split; [apply rnd_nonneg; exact Q0|]. apply Rabs_le. lra.
Qed.

(** the outer product *)
Lemma outer w z q : 0 <= w <= 1 -> 0 <= z -> 0 <= q <= 1 -> Rabs (z - q) <= 30000 * e16 ->
  let r := rnd (rnd w * z) in 0 <= r /\ Rabs (r - w * q) <= 31000 * e16.
Proof.
  intros W Z Q E r. assert (E0 : 0 < e16 <= / 1000000000000000) by (unfold e16; lra). apply Rabs_le_inv in E.
  pose proof (rb w 1 ltac:(rewrite Rabs_pos_eq; lra)) as E1. pose proof (rnd_nonneg w (proj1 W)) as W0. pose proof (rnd_le_1 w (proj2 W)) as W1.
  apply Rabs_le_inv in E1. set (w' := rnd w) in *. clearbody w'.
  assert (P : 0 <= w' * z <= 2) by nra.
  pose proof (rb (w' * z) 2 ltac:(rewrite Rabs_pos_eq; lra)) as E2. apply Rabs_le_inv in E2.
  split; [apply rnd_nonneg; lra|]. unfold r. 
  assert (F : Rabs (w' * z - w * q) <= 30900 * e16).
  { replace (w' * z - w * q) with (w' * (z - q) + q * (w' - w)) by ring. eapply Rle_trans; [apply Rabs_triang|].
    rewrite !Rabs_mult, (Rabs_pos_eq w'), (Rabs_pos_eq q) by lra.
    assert (w' * Rabs (z - q) <= 1 * (30000 * e16)) by (apply Rmult_le_compat; [lra|apply Rabs_pos|lra|apply Rabs_le; lra]).
    assert (q * Rabs (w' - w) <= 1 * (2 * e16)) by (apply Rmult_le_compat; [lra|apply Rabs_pos|lra|apply Rabs_le; lra]). lra. }
  apply Rabs_le_inv in F. apply Rabs_le. lra.
Qed.

Section Moran.
Variables (n : nat) (s u v : R).
Hypothesis N : (2 <= n <= 500)%nat.
Hypothesis Sb : -1 <= s <= 1.
Hypothesis Ub : 0 <= u <= 1.
Hypothesis Vb : 0 <= v <= 1.

Lemma compl_near w : 0 <= w <= 1 -> 0 <= rnd (1 - w) <= 1 /\ Rabs (rnd (1 - w) - (1 - w)) <= 2 * e16.
Proof.
  intros W. pose proof (rb (1 - w) 1 ltac:(rewrite Rabs_pos_eq; lra)). split; [|lra].
  split; [apply rnd_nonneg; lra|apply rnd_le_1; lra].
Qed.
Section Row.
Variable i : nat.
Hypothesis I : (1 <= i < n)%nat.
Let x := INR i.
Let y := INR (n - i).
Let R0 := (1 - s) * x.
Let R1 := rnd (rnd (1 - s) * x).

Lemma sizes : 1 <= x <= 499 /\ 1 <= y <= 499 /\ x + y = INR n /\ 2 <= INR n <= 500 /\ is_double y.
Proof.
  unfold x, y. assert (A : 1 <= INR i) by (apply (le_INR 1); lia). assert (B : INR i <= INR 499) by (apply le_INR; lia).
  assert (C : 1 <= INR (n - i)) by (apply (le_INR 1); lia). assert (D : INR (n - i) <= INR 499) by (apply le_INR; lia).
  assert (E : INR 499 = 499) by (rewrite INR_IZR_INZ; reflexivity). rewrite E in *.
  assert (F : INR i + INR (n - i) = INR n) by (rewrite <- plus_INR; f_equal; lia).
  assert (G : INR n <= 500) by (replace 500 with (INR 500) by (rewrite INR_IZR_INZ; reflexivity); apply le_INR; lia).
  split; [lra|]. split; [lra|]. split; [exact F|]. split; [lra|]. apply double_small. lia.
Qed.
Lemma fitness : 0 <= R0 <= 2 * x /\ 0 <= R1 <= 2 * x /\ Rabs (R1 - R0) <= 4000 * e16.
Proof.
  destruct sizes as (X & _). assert (E0 : 0 < e16 <= / 1000000000000000) by (unfold e16; lra).
  pose proof (rb (1 - s) 2 ltac:(rewrite Rabs_pos_eq; lra)) as E1.
  assert (r0 : 0 <= rnd (1 - s)) by (apply rnd_nonneg; lra).
  assert (r2 : rnd (1 - s) <= 2).
  { rewrite <- (rnd_id 2); [apply rnd_le; lra|]. change 2 with (INR 2). apply double_small. lia. }
  set (r := rnd (1 - s)) in *. clearbody r.
  assert (P : 0 <= r * x <= 2 * x) by nra. 
  pose proof (rb (r * x) 998 ltac:(rewrite Rabs_pos_eq; lra)) as E2.
  split; [unfold R0; nra|]. split.
  - unfold R1. split; [apply rnd_nonneg; lra|].
    rewrite <- (rnd_id (2 * x)); [apply rnd_le; lra|]. unfold x. replace (2 * INR i) with (INR (2 * i)) by (rewrite mult_INR; simpl; ring).
    apply double_small. lia.
  - unfold R1, R0. apply Rabs_le_inv in E1. apply Rabs_le_inv in E2.
    assert (F : Rabs ((r - (1 - s)) * x) <= 3 * e16 * 499).
    { rewrite Rabs_mult, (Rabs_pos_eq x) by lra. apply Rmult_le_compat; [apply Rabs_pos|lra|apply Rabs_le; lra|lra]. }
    apply Rabs_le_inv in F. apply Rabs_le. lra.
Qed.
Lemma lose_near : 0 <= f_pm n s u v i /\ Rabs (f_pm n s u v i - loseR n s u v i) <= 31000 * e16.
Proof.
  destruct sizes as (X & Y & XY & Nn & Dy). destruct fitness as (F0 & F1 & FN). destruct (compl_near v Vb) as [C1 C2].
  assert (LE : R0 * v + y * (1 - v) <= R0 + y) by nra.
  destruct (fraction x y R0 R1 v (1 - v) v (rnd (1 - v)) X Y Dy F0 F1 FN Vb ltac:(lra) Vb C1 ltac:(replace (v - v) with 0 by ring; rewrite Rabs_R0; unfold e16; lra) C2 ltac:(lra) LE) as [Z0 ZN].
  assert (Q : 0 <= (R0 * v + y * (1 - v)) / (R0 + y) <= 1).
  { split; [apply Rmult_le_pos; [nra|left; apply Rinv_0_lt_compat; lra]|].
    apply (Rmult_le_reg_r (R0 + y)); [lra|]. unfold Rdiv. rewrite Rmult_assoc, Rinv_l by lra. lra. }
  assert (W : 0 <= x / INR n <= 1).
  { split; [apply Rmult_le_pos; [lra|left; apply Rinv_0_lt_compat; lra]|].
    apply (Rmult_le_reg_r (INR n)); [lra|]. unfold Rdiv. rewrite Rmult_assoc, Rinv_l by lra. lra. }
  exact (outer (x / INR n) _ _ W Z0 Q ZN).
Qed.
Lemma gain_near : 0 <= f_pp n s u v i /\ Rabs (f_pp n s u v i - gainR n s u v i) <= 31000 * e16.
Proof.
  destruct sizes as (X & Y & XY & Nn & Dy). destruct fitness as (F0 & F1 & FN). destruct (compl_near u Ub) as [C1 C2].
  assert (LE : R0 * (1 - u) + y * v <= R0 + y) by nra.
  destruct (fraction x y R0 R1 (1 - u) v (rnd (1 - u)) v X Y Dy F0 F1 FN ltac:(lra) Vb C1 Vb C2 ltac:(replace (v - v) with 0 by ring; rewrite Rabs_R0; unfold e16; lra) ltac:(lra) LE) as [Z0 ZN].
  assert (Q : 0 <= (R0 * (1 - u) + y * v) / (R0 + y) <= 1).
  { split; [apply Rmult_le_pos; [nra|left; apply Rinv_0_lt_compat; lra]|].
    apply (Rmult_le_reg_r (R0 + y)); [lra|]. unfold Rdiv. rewrite Rmult_assoc, Rinv_l by lra. lra. }
  assert (W : 0 <= y / INR n <= 1).
  { split; [apply Rmult_le_pos; [lra|left; apply Rinv_0_lt_compat; lra]|].
    apply (Rmult_le_reg_r (INR n)); [lra|]. unfold Rdiv. rewrite Rmult_assoc, Rinv_l by lra. lra. }
  exact (outer (y / INR n) _ _ W Z0 Q ZN).
Qed.
Lemma gap : 0 <= loseR n s u v i /\ 0 <= gainR n s u v i /\ loseR n s u v i + gainR n s u v i <= 1 - 1 / 1000000.
Proof.
  destruct sizes as (X & Y & XY & Nn & Dy). destruct fitness as (F0 & _ & _).
  unfold loseR, gainR. fold x y. fold R0. rewrite <- XY.
  assert (P0 : forall c, 0 <= c -> 0 <= c / (R0 + y)) by (intros c C; apply Rmult_le_pos; [exact C|left; apply Rinv_0_lt_compat; lra]).
  assert (P1 : forall c, 0 <= c -> 0 <= c / (x + y)) by (intros c C; apply Rmult_le_pos; [exact C|left; apply Rinv_0_lt_compat; lra]).
  split; [apply Rmult_le_pos; [apply P1; lra|apply P0; nra]|]. split; [apply Rmult_le_pos; [apply P1; lra|apply P0; nra]|].
  replace (x / (x + y) * ((R0 * v + y * (1 - v)) / (R0 + y)) + y / (x + y) * ((R0 * (1 - u) + y * v) / (R0 + y)))
    with (1 - (R0 * x * (1 - v) + x * y * v + y * y * (1 - v) + y * R0 * u) / ((x + y) * (R0 + y))) by (field; lra).
  assert (D : 1 <= R0 * x * (1 - v) + x * y * v + y * y * (1 - v) + y * R0 * u).
  { assert (0 <= R0 * x * (1 - v)) by (apply Rmult_le_pos; [apply Rmult_le_pos; lra|lra]).
    assert (0 <= y * R0 * u) by (apply Rmult_le_pos; [apply Rmult_le_pos; lra|lra]).
    assert (1 * v <= x * y * v) by (apply Rmult_le_compat_r; [lra|nra]).
    assert (1 * (1 - v) <= y * y * (1 - v)) by (apply Rmult_le_compat_r; [lra|nra]). lra. }
  assert (E : 0 < (x + y) * (R0 + y) <= 1000000).
  { split; [apply Rmult_lt_0_compat; lra|]. apply Rle_trans with (500 * 2000); [apply Rmult_le_compat; lra|lra]. }
  set (c := R0 * x * (1 - v) + x * y * v + y * y * (1 - v) + y * R0 * u) in *. set (d := (x + y) * (R0 + y)) in *. clearbody c d.
  assert (1 / 1000000 <= c / d); [|lra]. apply (Rmult_le_reg_r d); [lra|]. unfold Rdiv. rewrite (Rmult_assoc c), Rinv_l by lra. lra.
Qed.
Lemma stay_ok : 0 < rnd (rnd (1 - f_pm n s u v i) - f_pp n s u v i) /\
  Rabs (rnd (rnd (1 - f_pm n s u v i) - f_pp n s u v i) - (1 - loseR n s u v i - gainR n s u v i)) <= 63000 * e16.
Proof.
  destruct lose_near as [L0 L1]. destruct gain_near as [G0 G1]. destruct gap as (A & B & C).
  assert (E0 : 0 < e16 <= 12 / 100000000000000000) by (unfold e16; lra). apply Rabs_le_inv in L1. apply Rabs_le_inv in G1.
  set (pm := f_pm n s u v i) in *. set (pp := f_pp n s u v i) in *. set (l := loseR n s u v i) in *. set (g := gainR n s u v i) in *. clearbody pm pp l g.
  pose proof (rb (1 - pm) 1 ltac:(apply Rabs_le; lra)) as E1. apply Rabs_le_inv in E1.
  set (t := rnd (1 - pm)) in *. clearbody t.
  pose proof (rb (t - pp) 2 ltac:(apply Rabs_le; lra)) as E2. apply Rabs_le_inv in E2. split; [lra|]. apply Rabs_le. lra.
Qed.
End Row.
End Moran.

(** the rows *)
Lemma near_entry n s u v i j : (2 <= n <= 500)%nat -> -1 <= s <= 1 -> 0 <= u <= 1 -> 0 <= v <= 1 -> (i < n + 1)%nat ->
  0 <= f_moran_rows n s u v i j /\ is_double (f_moran_rows n s u v i j) /\
  Rabs (f_moran_rows n s u v i j - moranR n s u v i j) <= 63000 * e16.
Proof.
  intros N Sb Ub Vb I. assert (E0 : 0 < e16) by (unfold e16; lra).
  assert (Z : forall c, is_double c -> 0 <= c -> 0 <= c /\ is_double c /\ Rabs (c - c) <= 63000 * e16).
  { intros c D C. split; [exact C|]. split; [exact D|]. replace (c - c) with 0 by ring. rewrite Rabs_R0. lra. }
  assert (D1 : is_double 1) by (change 1 with (INR 1); apply double_small; lia).
  assert (D0 : is_double 0) by (change 0 with (INR 0); apply double_small; lia).
  unfold f_moran_rows, moranR. destruct (Nat.eqb_spec i 0) as [I0|I0]; [destruct (Nat.eqb j 0); apply Z; (exact D1 || exact D0 || lra)|].
  destruct (Nat.eqb_spec i n) as [In|In]; [destruct (Nat.eqb j n); apply Z; (exact D1 || exact D0 || lra)|].
  assert (Ii : (1 <= i < n)%nat) by lia.
  destruct (Nat.eqb (S j) i).
  { destruct (lose_near n s u v N Sb Vb i Ii) as [A B]. split; [exact A|]. split; [apply is_double_rnd|lra]. }
  destruct (Nat.eqb j i).
  { destruct (stay_ok n s u v N Sb Ub Vb i Ii) as [A B]. split; [lra|]. split; [apply is_double_rnd|exact B]. }
  destruct (Nat.eqb j (S i)); [|apply Z; [exact D0|lra]].
  destruct (gain_near n s u v N Sb Ub Vb i Ii) as [A B]. split; [exact A|]. split; [apply is_double_rnd|lra].
Qed.
Lemma three_sum k i a b c : (1 <= i)%nat -> (S i < k)%nat ->
  rsumn k (fun j => if Nat.eqb (S j) i then a else if Nat.eqb j i then b else if Nat.eqb j (S i) then c else 0) = a + b + c.
Proof.
  intros I K.
  rewrite (rsumn_ext k _ (fun j => (if Nat.eqb j (i - 1) then a else 0) + ((if Nat.eqb j i then b else 0) + (if Nat.eqb j (S i) then c else 0)))).
  - rewrite rsumn_add, rsumn_add, !(rsumn_single 2 (le_n 2)).
    rewrite (proj2 (Nat.ltb_lt (i - 1) k)), (proj2 (Nat.ltb_lt i k)), (proj2 (Nat.ltb_lt (S i) k)) by lia. ring.
  - intros j J. destruct (Nat.eqb_spec (S j) i), (Nat.eqb_spec j (i - 1)), (Nat.eqb_spec j i), (Nat.eqb_spec j (S i)); try lia; ring.
Qed.
Lemma near_total n s u v i : (2 <= n <= 500)%nat -> -1 <= s <= 1 -> 0 <= u <= 1 -> 0 <= v <= 1 -> (i < n + 1)%nat ->
  Rabs (rsumn (n + 1) (f_moran_rows n s u v i) - 1) <= 125000 * e16.
Proof.
  intros N Sb Ub Vb I. assert (E0 : 0 < e16) by (unfold e16; lra).
  assert (U : forall c, (c < n + 1)%nat -> Rabs (rsumn (n + 1) (fun j => if Nat.eqb j c then 1 else 0) - 1) <= 125000 * e16).
  { intros c C. rewrite (rsumn_single 2 (le_n 2)), (proj2 (Nat.ltb_lt c (n + 1)) C). replace (1 - 1) with 0 by ring. rewrite Rabs_R0. lra. }
  unfold f_moran_rows. destruct (Nat.eqb_spec i 0) as [I0|I0]; [apply U; lia|]. destruct (Nat.eqb_spec i n) as [In|In]; [apply U; lia|].
  assert (Ii : (1 <= i < n)%nat) by lia. rewrite three_sum by lia.
  destruct (lose_near n s u v N Sb Vb i Ii) as [_ A]. destruct (stay_ok n s u v N Sb Ub Vb i Ii) as [_ B]. destruct (gain_near n s u v N Sb Ub Vb i Ii) as [_ C].
  apply Rabs_le_inv in A. apply Rabs_le_inv in B. apply Rabs_le_inv in C. apply Rabs_le. lra.
Qed.
Lemma some_positive n s u v i : (2 <= n <= 500)%nat -> -1 <= s <= 1 -> 0 <= u <= 1 -> 0 <= v <= 1 -> (i < n + 1)%nat ->
  exists j, (j < n + 1)%nat /\ 0 < f_moran_rows n s u v i j.
Proof.
  intros N Sb Ub Vb I. exists i. split; [exact I|]. unfold f_moran_rows.
  destruct (Nat.eqb_spec i 0) as [I0|I0]; [lra|]. destruct (Nat.eqb_spec i n) as [In|In]; [lra|].
  rewrite (proj2 (Nat.eqb_neq (S i) i)) by lia. rewrite Nat.eqb_refl. apply (stay_ok n s u v N Sb Ub Vb i). lia.
Qed.
Lemma few n : (n <= 500)%nat -> INR (n + 1) <= 501.
Proof. intros N. replace 501 with (INR 501) by (rewrite INR_IZR_INZ; reflexivity). apply le_INR. lia. Qed.

Theorem moran_accepted sm sm' n s u v : summing sm -> summing sm' -> (2 <= n <= 500)%nat ->
  is_double s -> is_double u -> is_double v -> -1 <= s <= 1 -> 0 <= u <= 1 -> 0 <= v <= 1 ->
  f_accepts sm' (n + 1) (f_moran sm n s u v).
Proof.
  intros S S' N _ _ _ Sb Ub Vb. pose proof (few n (proj2 N)) as F. apply normalized_accepted; [exact S|exact S'|lia|lra| |].
  - intros i j I J. destruct (near_entry n s u v i j N Sb Ub Vb I) as (A & B & _). split; [exact B|exact A].
  - intros i I. apply some_positive; assumption.
Qed.
Theorem moran_accurate sm n s u v i j : summing sm -> (2 <= n <= 500)%nat ->
  is_double s -> is_double u -> is_double v -> -1 <= s <= 1 -> 0 <= u <= 1 -> 0 <= v <= 1 -> (i < n + 1)%nat -> (j < n + 1)%nat ->
  Rabs (f_moran sm n s u v i j - moranR n s u v i j) <= 1 / 10000000000.
Proof.
  intros S N _ _ _ Sb Ub Vb I J. pose proof (few n (proj2 N)) as F. pose proof (pos_INR (n + 1)) as Np.
  set (m := f_moran_rows n s u v).
  assert (D : forall l, (l < n + 1)%nat -> is_double (m i l) /\ 0 <= m i l).
  { intros l L. destruct (near_entry n s u v i l N Sb Ub Vb I) as (A & B & _). split; [exact B|exact A]. }
  pose proof (share_near sm (n + 1) (m i) S ltac:(lra) D (some_positive n s u v i N Sb Ub Vb I) j J) as E.
  pose proof (near_total n s u v i N Sb Ub Vb I) as T. destruct (near_entry n s u v i j N Sb Ub Vb I) as (A & _ & B).
  assert (LE : m i j <= rsumn (n + 1) (m i)).
  { replace (m i j) with (rsumn (n + 1) (fun l => if Nat.eqb l j then m i j else 0)) by (rewrite (rsumn_single 2 (le_n 2)), (proj2 (Nat.ltb_lt j (n + 1)) J); reflexivity). apply rsumn_le. intros l L. destruct (Nat.eqb_spec l j) as [e|e]; [subst l; lra|apply (D l L)]. }
  unfold f_moran, f_normalize. fold m in T, A, B |- *.
  set (w := m i j) in *. set (t := rsumn (n + 1) (m i)) in *. set (ex := moranR n s u v i j) in *. set (z := rnd _) in *. clearbody w t ex z.
  assert (E0 : 0 < e16 <= 12 / 100000000000000000) by (unfold e16; lra). apply Rabs_le_inv in T. apply Rabs_le_inv in B.
  assert (Q : 0 <= w / t <= 1).
  { split; [apply Rmult_le_pos; [lra|left; apply Rinv_0_lt_compat; lra]|]. apply (Rmult_le_reg_r t); [lra|]. unfold Rdiv. rewrite Rmult_assoc, Rinv_l by lra. lra. }
  assert (G : Rabs (w / t - w) <= 125000 * e16).
  { replace (w / t - w) with (w / t * (1 - t)) by (field; lra). rewrite Rabs_mult, (Rabs_pos_eq (w / t)) by lra.
    assert (w / t * Rabs (1 - t) <= 1 * (125000 * e16)); [|lra]. apply Rmult_le_compat; [lra|apply Rabs_pos|lra|apply Rabs_le; lra]. }
  assert (H : 4 * INR (n + 1) * uu * (w / t) + tiny <= 3000 * e16).
  { pose proof tiny_small as TS. pose proof uu_pos as UP. assert (U : uu <= e16) by (rewrite uu_val; unfold e16; lra).
    assert (K : 4 * INR (n + 1) * uu <= 2004 * e16) by (apply Rmult_le_compat; lra).
    assert (0 <= 4 * INR (n + 1) * uu) by (apply Rmult_le_pos; lra).
    assert (4 * INR (n + 1) * uu * (w / t) <= 2004 * e16 * 1) by (apply Rmult_le_compat; lra). lra. }
  assert (E' : Rabs (z - w / t) <= 3000 * e16) by (apply Rabs_le; lra).
  apply Rabs_le_inv in G. apply Rabs_le_inv in E'. apply Rabs_le. lra.
Qed.

(** the gambler's ruin *)
Lemma ruin_entry n w i j : is_double w -> 0 < w < 1 ->
  is_double (f_ruin n w i j) /\ 0 <= f_ruin n w i j <= 1 /\ Rabs (f_ruin n w i j - ruinR n w i j) <= 2 * e16.
Proof.
  intros Dw W. assert (E0 : 0 < e16) by (unfold e16; lra).
  assert (Z : forall c, is_double c -> 0 <= c <= 1 -> is_double c /\ 0 <= c <= 1 /\ Rabs (c - c) <= 2 * e16).
  { intros c D C. split; [exact D|]. split; [exact C|]. replace (c - c) with 0 by ring. rewrite Rabs_R0. lra. }
  assert (D1 : is_double 1) by (change 1 with (INR 1); apply double_small; lia).
  assert (D0 : is_double 0) by (change 0 with (INR 0); apply double_small; lia).
  unfold f_ruin, ruinR. destruct (Nat.eqb i 0); [destruct (Nat.eqb j 0); apply Z; (exact D1 || exact D0 || lra)|].
  destruct (Nat.eqb i (n - 1)); [destruct (Nat.eqb j (n - 1)); apply Z; (exact D1 || exact D0 || lra)|].
  destruct (Nat.eqb (S j) i).
  { destruct (compl_near w ltac:(lra)) as [A B]. split; [apply is_double_rnd|]. split; [exact A|exact B]. }
  destruct (Nat.eqb j (S i)); apply Z; (exact Dw || exact D0 || lra).
Qed.
Lemma ruin_total n w i : (3 <= n)%nat -> 0 < w < 1 -> (i < n)%nat -> Rabs (rsumn n (f_ruin n w i) - 1) <= 2 * e16.
Proof.
  intros N W I. assert (E0 : 0 < e16) by (unfold e16; lra).
  assert (U : forall c, (c < n)%nat -> Rabs (rsumn n (fun j => if Nat.eqb j c then 1 else 0) - 1) <= 2 * e16).
  { intros c C. rewrite (rsumn_single 2 (le_n 2)), (proj2 (Nat.ltb_lt c n) C). replace (1 - 1) with 0 by ring. rewrite Rabs_R0. lra. }
  unfold f_ruin. destruct (Nat.eqb_spec i 0) as [I0|I0]; [apply U; lia|]. destruct (Nat.eqb_spec i (n - 1)) as [In|In]; [apply U; lia|].
  rewrite (rsumn_ext n _ (fun j => if Nat.eqb (S j) i then rnd (1 - w) else if Nat.eqb j i then 0 else if Nat.eqb j (S i) then w else 0)).
  - rewrite three_sum by lia. destruct (compl_near w ltac:(lra)) as [_ B]. apply Rabs_le_inv in B. apply Rabs_le. lra.
  - intros j J. destruct (Nat.eqb_spec (S j) i), (Nat.eqb_spec j i), (Nat.eqb_spec j (S i)); try lia; reflexivity.
Qed.
Theorem ruin_accepted sm n w : summing sm -> (3 <= n)%nat -> INR n <= 1000000000 -> is_double w -> 0 < w < 1 ->
  f_accepts sm n (f_ruin n w).
Proof.
  intros S N Nn Dw W. split; [lia|]. split.
  - intros i j I J. destruct (ruin_entry n w i j Dw W) as (A & B & _). split; [exact A|exact B].
  - intros i I. destruct (row_bounds sm n (f_ruin n w i) S) as [[F _] [L U]].
    { intros j J. destruct (ruin_entry n w i j Dw W) as (A & B & _). split; [exact A|lra]. }
    apply close_in; [exact F|]. pose proof (ruin_total n w i N W I) as T. set (x := sm _) in *. set (t := rsumn n _) in *. clearbody x t.
    pose proof uu_val as UV. pose proof uu_pos as UP. pose proof (pos_INR n) as Np.
    assert (E0 : 0 < e16 <= 12 / 100000000000000000) by (unfold e16; lra). apply Rabs_le_inv in T.
    assert (K : 0 <= INR n * uu <= 12 / 100000000).
    { split; [apply Rmult_le_pos; lra|]. apply Rle_trans with (1000000000 * uu); [apply Rmult_le_compat_r; lra|rewrite UV; lra]. }
    pose proof (lo_ge n) as LG. pose proof (hi_le n ltac:(lra)) as HL.
    assert (lo n * t >= (1 - 12 / 100000000) * t) by (apply Rle_ge, Rmult_le_compat_r; lra).
    assert (hi n * t <= (1 + 24 / 100000000) * t) by (apply Rmult_le_compat_r; lra).
    apply Rabs_le. lra.
Qed.
Theorem ruin_accurate n w i j : is_double w -> 0 < w < 1 -> Rabs (f_ruin n w i j - ruinR n w i j) <= uu * ruinR n w i j + tiny.
Proof.
  intros Dw W. pose proof uu_pos as UP. pose proof tiny_pos as TP.
  assert (Z : forall c, 0 <= c -> Rabs (c - c) <= uu * c + tiny).
  { intros c C. replace (c - c) with 0 by ring. rewrite Rabs_R0. assert (0 <= uu * c) by (apply Rmult_le_pos; lra). lra. }
  unfold f_ruin, ruinR. destruct (Nat.eqb i 0); [destruct (Nat.eqb j 0); apply Z; lra|].
  destruct (Nat.eqb i (n - 1)); [destruct (Nat.eqb j (n - 1)); apply Z; lra|].
  destruct (Nat.eqb (S j) i).
  { pose proof (rnd_err (1 - w)) as E. rewrite (Rabs_pos_eq (1 - w)) in E by lra. exact E. }
  destruct (Nat.eqb j (S i)); apply Z; lra.
Qed.

(** impossible moves *)
Theorem moran_moves sm n s u v i j : (i < n + 1)%nat -> i <> j ->
  (i = 0%nat \/ i = n \/ (S i < j)%nat \/ (S j < i)%nat) -> f_moran sm n s u v i j = 0.
Proof.
  intros I D H. unfold f_moran, f_normalize.
  assert (E : f_moran_rows n s u v i j = 0).
  { unfold f_moran_rows. destruct (Nat.eqb_spec i 0) as [I0|I0]; [destruct (Nat.eqb_spec j 0); [lia|reflexivity]|].
    destruct (Nat.eqb_spec i n) as [In|In]; [destruct (Nat.eqb_spec j n); [lia|reflexivity]|].
    destruct (Nat.eqb_spec (S j) i), (Nat.eqb_spec j i), (Nat.eqb_spec j (S i)); try lia; reflexivity. }
  rewrite E. unfold Rdiv. rewrite Rmult_0_l. apply rnd_0.
Qed.
Lemma half_double : is_double (1 / 2).
Proof.
  replace (1 / 2) with (rnd (1 / 2)); [apply is_double_rnd|]. apply rnd_id. apply generic_format_FLT.
  apply (FLT_spec radix2 (-1074) 53 (1 / 2) (Float radix2 1 (-1))); [unfold F2R; simpl; lra|simpl; lia|simpl; lia].
Qed.
Lemma moran_value : moranR 2 (1 / 2) (1 / 2) (1 / 2) 1 0 = 1 / 4 /\ moranR 2 (1 / 2) (1 / 2) (1 / 2) 1 1 = 1 / 2.
Proof. unfold moranR, loseR, gainR. simpl. split; field. Qed.
