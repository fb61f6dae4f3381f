(** L_Classic4: gambler's ruin and fixation in populations. *)
From Verif Require Import S_Gen M_Generators S_Gen2 L_Gen1 L_Gen2 L_GenR L_PropsR L_LimitR L_Classic L_Classic2 L_Classic3.
Notation qpow := M_Generators.qpow.
Open Scope res_scope.

Lemma ladder_S g i : ladder g (S i) = (ladder g i + power g i)%Qc.
Proof. reflexivity. Qed.
Lemma ladder_pos g i : (0 <= g)%Qc -> 0 < i -> (0 < ladder g i)%Qc.
Proof.
  intros G H. unfold ladder. apply (sumn_pos i (power g) 0); [exact H|reflexivity|]. intros k _. rewrite power_qpow. apply L_Gen2.qpow_nonneg, G.
Qed.
Lemma ladder_1 i : ladder 1q i = Qcn i.
Proof. induction i as [|i IH]; [rewrite Qcn_0; reflexivity|]. rewrite ladder_S, IH, power_qpow, L_Gen2.qpow_1, Qcn_S. reflexivity. Qed.
Lemma ladder_closed g i : g <> 1q -> ladder g i = ((1 - power g i) / (1 - g))%Qc.
Proof.
  intros N. assert (D : (1 - g)%Qc <> 0q) by (intros X; apply N; transitivity (1 - (1 - g))%Qc; [ring|rewrite X; reflexivity]).
  induction i as [|i IH]; [cbn; unfold Qcdiv; ring|]. rewrite ladder_S, IH. change (power g (S i)) with (g * power g i)%Qc.
  apply (Qc_mul_cancel_r _ _ (1 - g)%Qc D). rewrite Qcmult_plus_distr_l, !Qc_div_mul by exact D. ring.
Qed.
(** A row that moves to its neighbours only. *)
Lemma line_row n (P : mat) i (f : nat -> Qc) u d : 0 < i < n - 1 -> mget P i (i + 1) = u -> mget P i (i - 1) = d -> mget P i i = (1 - u - d)%Qc ->
  (forall j, j < n -> j <> i + 1 -> j <> i - 1 -> j <> i -> mget P i j = 0q) ->
  sumn n (fun j => mget P i j * f j)%Qc = (f i + u * (f (i + 1)%nat - f i) - d * (f i - f (i - 1)%nat))%Qc.
Proof.
  intros Hi U D S0 Z. rewrite (sumn_three n _ i) by (try lia; intros j Hj A B C; rewrite Z by lia; ring).
  rewrite <- (Nat.add_1_r i). rewrite U, D, S0. ring.
Qed.
Lemma ladder_harmonic n (P : mat) g i u d : 0 < i < n - 1 -> (0 <= g)%Qc -> mget P i (i + 1) = u -> mget P i (i - 1) = d -> mget P i i = (1 - u - d)%Qc ->
  (forall j, j < n -> j <> i + 1 -> j <> i - 1 -> j <> i -> mget P i j = 0q) -> d = (g * u)%Qc ->
  sumn n (fun j => mget P i j * (ladder g j / ladder g (n - 1)))%Qc = (ladder g i / ladder g (n - 1))%Qc.
Proof.
  intros Hi G U D S0 Z E. rewrite (line_row n P i (fun j => ladder g j / ladder g (n - 1))%Qc u d Hi U D S0 Z). cbv beta.
  destruct i as [|i]; [lia|]. replace (S i - 1) with i by lia. rewrite Nat.add_1_r, !ladder_S. change (power g (S i)) with (g * power g i)%Qc. rewrite E. unfold Qcdiv. ring.
Qed.

(** * Gambler's ruin *)
Lemma ruin_ends size w st c m : gamblers_ruin size w st = Ok c -> en_p m = ch_p c -> let n := Z.to_nat size in env_ok n m -> two_ends n m.
Proof.
  intros H Em n E. destruct (gamblers_ruin_spec size w st c H) as (S3 & _ & _ & B & I). fold n in B, I. rewrite <- Em in B, I.
  assert (Hw : (0 < w < 1)%Qc).
  { revert H. unfold gamblers_ruin. destruct (Z.leb 3 size); [|discriminate]. cbv iota. destruct (Qcltb_spec 0 w); [|discriminate]. destruct (Qcltb_spec w 1); [|discriminate]. intros _. split; assumption. }
  assert (Hn : 3 <= n) by (unfold n; lia).
  assert (Dg : forall i, 0 < i < n - 1 -> mget (en_p m) i i = 0q) by (intros i Hi; apply I; lia).
  assert (F0 : mget (en_p m) 0 0 = 1q) by (rewrite (proj1 (B 0 ltac:(lia))), delta_refl; reflexivity).
  assert (F1 : mget (en_p m) (n - 1) (n - 1) = 1q) by (rewrite (proj2 (B (n - 1) ltac:(lia))), delta_refl; reflexivity).
  split; try assumption.
  - intros k Hk. destruct (Nat.eq_dec k 0) as [->|N0]; [left; exact F0|]. destruct (Nat.eq_dec k (n - 1)) as [->|N1]; [left; exact F1|].
    right. rewrite Dg by lia. apply Qcleb_le. reflexivity.
  - intros i Hi. rewrite Dg by exact Hi. discriminate.
  - intros i Hi. left. assert (forall k, k < n - 1 -> reach n (edge (en_p m)) k 0).
    { induction k as [|k IH]; intros Hk; [apply reach_refl; lia|]. apply (reach_trans n _ (S k) k); [|apply IH; lia].
      apply reach_step; try lia. unfold edge. destruct (I (S k) ltac:(lia)) as (_ & X & _). replace (S k - 1) with k in X by lia. rewrite X. qclra. }
    apply H0. lia.
Qed.
Lemma ruin_win size w st c m : gamblers_ruin size w st = Ok c -> en_p m = ch_p c -> let n := Z.to_nat size in env_ok n m ->
  let h i := (ladder ((1 - w) / w) i / ladder ((1 - w) / w) (n - 1))%Qc in
  absorption_probabilities m = Ok (Some [tab (n - 2) (fun k => 1 - h (k + 1)%nat)%Qc; tab (n - 2) (fun k => h (k + 1)%nat)]) /\
  forall i, 0 < i < n - 1 -> tends (fun k => kstep n (en_p m) k i (n - 1)) (h i).
Proof.
  intros H Em n E h. pose proof (ruin_ends size w st c m H Em E) as TE. fold n in TE.
  destruct (gamblers_ruin_spec size w st c H) as (S3 & _ & _ & B & I). fold n in B, I. rewrite <- Em in B, I.
  assert (Hw : (0 < w < 1)%Qc).
  { revert H. unfold gamblers_ruin. destruct (Z.leb 3 size); [|discriminate]. cbv iota. destruct (Qcltb_spec 0 w); [|discriminate]. destruct (Qcltb_spec w 1); [|discriminate]. intros _. split; assumption. }
  assert (Hn : 3 <= n) by (unfold n; lia). set (g := ((1 - w) / w)%Qc) in *.
  assert (G : (0 <= g)%Qc) by (apply Qc_div_nonneg; [qclra|apply Hw]).
  assert (W0 : w <> 0q) by (intros X; destruct Hw as [X1 _]; rewrite X in X1; discriminate).
  assert (H0 : h 0 = 0q) by (unfold h, ladder; cbn [sumn]; unfold Qcdiv; ring).
  assert (H1 : h (n - 1) = 1q). { unfold h. apply Qc_div_self. pose proof (ladder_pos g (n - 1) G ltac:(lia)) as X. intros Y. rewrite Y in X. discriminate. }
  assert (Hh : forall i, 0 < i < n - 1 -> sumn n (fun j => mget (en_p m) i j * h j)%Qc = h i).
  { intros i Hi. destruct (I i Hi) as (U & D & Z). apply (ladder_harmonic n (en_p m) g i w (1 - w)%Qc Hi G U D).
    - rewrite Z by lia. ring.
    - intros j Hj A1 A2 _. apply Z; assumption.
    - unfold g. rewrite Qc_div_mul by exact W0. reflexivity. }
  split; [|apply (ends_limit n m TE); assumption].
  rewrite (ends_values n m TE h H0 H1 Hh). f_equal. f_equal. f_equal; [|f_equal]; apply tab_ext; intros k _; rewrite Nat.add_1_r; reflexivity.
Qed.
Lemma ruin_time size w st c m : gamblers_ruin size w st = Ok c -> en_p m = ch_p c -> let n := Z.to_nat size in env_ok n m ->
  let h i := (ladder ((1 - w) / w) i / ladder ((1 - w) / w) (n - 1))%Qc in
  mean_absorption_times m = Ok (Some (tab (n - 2) (fun k => let i := (k + 1)%nat in
    if Qceqb w (1 / two) then Qcn i * Qcn (n - 1 - i) else (Qcn i - Qcn (n - 1) * h i) / (1 - two * w))%Qc)).
Proof.
  intros H Em n E h. pose proof (ruin_ends size w st c m H Em E) as TE. fold n in TE.
  destruct (gamblers_ruin_spec size w st c H) as (S3 & _ & _ & B & I). fold n in B, I. rewrite <- Em in B, I.
  assert (Hw : (0 < w < 1)%Qc).
  { revert H. unfold gamblers_ruin. destruct (Z.leb 3 size); [|discriminate]. cbv iota. destruct (Qcltb_spec 0 w); [|discriminate]. destruct (Qcltb_spec w 1); [|discriminate]. intros _. split; assumption. }
  assert (Hn : 3 <= n) by (unfold n; lia).
  assert (Dg : forall i, 0 < i < n - 1 -> mget (en_p m) i i = (1 - w - (1 - w))%Qc) by (intros i Hi; rewrite (proj2 (proj2 (I i Hi)) i) by lia; ring).
  assert (Row : forall i f, 0 < i < n - 1 -> sumn n (fun j => mget (en_p m) i j * f j)%Qc = (f i + w * (f (i + 1)%nat - f i) - (1 - w) * (f i - f (i - 1)%nat))%Qc).
  { intros i f Hi. destruct (I i Hi) as (U & D & Z). apply line_row; try assumption; [apply Dg, Hi|]. intros j Hj A1 A2 _. apply Z; assumption. }
  destruct (Qceqb w (1 / two)) eqn:F.
  - apply Qceqb_eq in F. rewrite (ends_times n m TE (fun i => Qcn i * Qcn (n - 1 - i))%Qc).
    + f_equal. f_equal. apply tab_ext. intros k _. rewrite Nat.add_1_r. reflexivity.
    + rewrite Qcn_0. ring.
    + rewrite Nat.sub_diag, Qcn_0. ring.
    + intros i Hi. rewrite Row by exact Hi. cbv beta. rewrite !Qcn_sub by lia. rewrite Qcn_add, Qcn_1, F.
      assert (T : (1 / two + 1 / two = 1)%Qc) by (apply Qceqb_eq; reflexivity). set (hf := (1 / two)%Qc) in *.
      assert (T2 : (1 - hf)%Qc = hf) by (rewrite <- T; ring). rewrite T2. clearbody hf. set (x := Qcn i). set (M := Qcn n).
      transitivity (x * (M - 1 - x) + (1 - (hf + hf)))%Qc; [ring|]. rewrite T. ring.
  - apply Qceqb_neq in F. assert (D2 : (1 - two * w)%Qc <> 0q).
    { intros X. apply F. apply (Qc_mul_cancel_r _ _ two); [discriminate|]. rewrite Qc_div_mul by discriminate. transitivity (two * w + (1 - two * w))%Qc; [rewrite X|]; ring. }
    destruct (ruin_win size w st c m H Em E) as [_ _]. set (g := ((1 - w) / w)%Qc) in *.
    assert (G : (0 <= g)%Qc) by (apply Qc_div_nonneg; [qclra|apply Hw]).
    assert (W0 : w <> 0q) by (intros X; destruct Hw as [X1 _]; rewrite X in X1; discriminate).
    rewrite (ends_times n m TE (fun i => (Qcn i - Qcn (n - 1) * h i) / (1 - two * w))%Qc).
    + f_equal. f_equal. apply tab_ext. intros k _. rewrite Nat.add_1_r. reflexivity.
    + unfold h, ladder. cbn [sumn]. rewrite Qcn_0. unfold Qcdiv. ring.
    + unfold h. rewrite Qc_div_self; [unfold Qcdiv; ring|]. pose proof (ladder_pos g (n - 1) G ltac:(lia)) as X. intros Y. rewrite Y in X. discriminate.
    + intros i Hi. destruct (I i Hi) as (U & D & Z).
      assert (Hh : sumn n (fun j => mget (en_p m) i j * h j)%Qc = h i).
      { apply (ladder_harmonic n (en_p m) g i w (1 - w)%Qc Hi G U D (Dg i Hi)); [intros j Hj A1 A2 _; apply Z; assumption|]. unfold g. rewrite Qc_div_mul by exact W0. reflexivity. }
      rewrite (sumn_ext n _ (fun j => (mget (en_p m) i j * Qcn j - Qcn (n - 1) * (mget (en_p m) i j * h j)) / (1 - two * w))%Qc) by (intros; unfold Qcdiv; ring).
      rewrite sumn_div, sumn_minus, sumn_mul_l, Hh, (Row i Qcn Hi). rewrite Qcn_add, Qcn_1, Qcn_sub, Qcn_1 by lia.
      apply (Qc_mul_cancel_r _ _ (1 - two * w)%Qc D2). rewrite Qcmult_plus_distr_l, !Qc_div_mul by exact D2. rewrite two_eq. ring.
Qed.

(** * Fixation *)
Section MORAN.
Variables (N : nat) (s : Qc).
Hypothesis HN : 2 <= N <= 500.
Hypothesis S0 : (-(1) <= s)%Qc.
Hypothesis S1 : (s < 1)%Qc.
Notation P := (moran_raw N s 0 0).
Definition mup (i : nat) : Qc := ((1 - s) * (Qcn i * Qcn (N - i) / (Qcn N * moran_den N s i)))%Qc.
Definition mdown (i : nat) : Qc := (Qcn i * Qcn (N - i) / (Qcn N * moran_den N s i))%Qc.
Lemma den_pos i : 0 < i < N -> (0 < moran_den N s i)%Qc.
Proof using S1 HN.
  intros Hi. unfold moran_den. assert (0 < Qcn (N - i))%Qc by (apply Qcn_pos; lia).
  assert (0 <= (1 - s) * Qcn i)%Qc by (apply Qc_mul_nonneg; [qclra|apply Qcn_nonneg]). qclra.
Qed.
Lemma moran_cells i : 0 < i < N ->
  mget P i (i + 1) = mup i /\ mget P i (i - 1) = mdown i /\ mget P i i = (1 - mup i - mdown i)%Qc /\
  (forall j, j < N + 1 -> j <> i + 1 -> j <> i - 1 -> j <> i -> mget P i j = 0q).
Proof using S1 HN.
  intros Hi. pose proof (den_pos i Hi) as Dp. assert (D : moran_den N s i <> 0q) by (intros X; rewrite X in Dp; discriminate).
  assert (Nz : Qcn N <> 0q) by (apply Qcn_nz; lia).
  assert (U : moran_pp1 N s 0 0 i = mup i) by (unfold moran_pp1, mup; field; split; assumption).
  assert (L : moran_pm1 N s 0 i = mdown i) by (unfold moran_pm1, mdown; field; split; assumption).
  unfold moran_raw. repeat apply conj.
  - rewrite mget_mk by lia. destruct (Nat.eqb_spec i 0); [lia|]. destruct (Nat.eqb_spec i N); [lia|]. destruct (Nat.eqb_spec (S (i + 1)) i); [lia|].
    destruct (Nat.eqb_spec (i + 1) i); [lia|]. destruct (Nat.eqb_spec (i + 1) (S i)); [exact U|lia].
  - rewrite mget_mk by lia. destruct (Nat.eqb_spec i 0); [lia|]. destruct (Nat.eqb_spec i N); [lia|]. destruct (Nat.eqb_spec (S (i - 1)) i); [exact L|lia].
  - rewrite mget_mk by lia. destruct (Nat.eqb_spec i 0); [lia|]. destruct (Nat.eqb_spec i N); [lia|]. destruct (Nat.eqb_spec (S i) i); [lia|].
    rewrite Nat.eqb_refl, U, L. ring.
  - intros j Hj A B C. rewrite mget_mk by lia. destruct (Nat.eqb_spec i 0); [lia|]. destruct (Nat.eqb_spec i N); [lia|]. destruct (Nat.eqb_spec (S j) i); [lia|].
    destruct (Nat.eqb_spec j i); [lia|]. destruct (Nat.eqb_spec j (S i)); [lia|reflexivity].
Qed.
Lemma moran_leaves i : 0 < i < N -> (Q2Qc (2 # 100000) <= mup i + mdown i)%Qc.
Proof using S0 S1 HN.
  intros Hi. pose proof (den_pos i Hi) as Dp. assert (Np : (0 < Qcn N)%Qc) by (apply Qcn_pos; lia).
  assert (Nd : (Qcn N * moran_den N s i)%Qc <> 0q) by (intros X; pose proof (Qc_mul_pos _ _ Np Dp) as Y; rewrite X in Y; discriminate).
  assert (E : ((mup i + mdown i) * (Qcn N * moran_den N s i) = (1 + 1 - s) * (Qcn i * Qcn (N - i)))%Qc).
  { unfold mup, mdown. transitivity ((1 + 1 - s) * (Qcn i * Qcn (N - i) / (Qcn N * moran_den N s i) * (Qcn N * moran_den N s i)))%Qc; [ring|]. rewrite Qc_div_mul by exact Nd. reflexivity. }
  assert (A : (Qcn N - 1 <= Qcn i * Qcn (N - i))%Qc).
  { rewrite <- Qcn_mul, <- Qcn_1, <- Qcn_sub by lia. apply Qcn_le. nia. }
  assert (Ni : (Qcn i <= Qcn N)%Qc) by (apply Qcn_le; lia). assert (I0 := Qcn_nonneg i).
  assert (Dm : (moran_den N s i <= (1 + 1) * Qcn N)%Qc) by (unfold moran_den; rewrite Qcn_sub by lia; qcnra).
  assert (N2 : (1 + 1 <= Qcn N)%Qc) by (apply Qcle_trans with (Qcn 2); [apply Qcleb_le; reflexivity|apply Qcn_le; lia]).
  assert (N5 : (Qcn N <= Q2Qc 500)%Qc) by (apply Qcle_trans with (Qcn 500); [apply Qcn_le; lia|apply Qcleb_le; vm_compute; reflexivity]).
  set (x := (mup i + mdown i)%Qc) in *. set (d := moran_den N s i) in *. set (a := (Qcn i * Qcn (N - i))%Qc) in *. set (M := Qcn N) in *.
  destruct (Qclt_le_dec x (Q2Qc (2 # 100000))) as [X|X]; [exfalso|exact X].
  assert (R : (a <= (1 + 1 - s) * a)%Qc) by qcnra.
  assert (Md : (M * d <= M * (Q2Qc 1000))%Qc).
  { assert (d <= Q2Qc 1000)%Qc; [|qcnra]. apply Qcle_trans with ((1 + 1) * M)%Qc; [exact Dm|]. apply Qcle_trans with ((1 + 1) * Q2Qc 500)%Qc; [qclra|]. apply Qcleb_le. vm_compute. reflexivity. }
  assert (L : (x * (M * d) <= Q2Qc (2 # 100000) * (M * Q2Qc 1000))%Qc).
  { pose proof (Qc_mul_pos M d Np Dp) as MD. apply Qcle_trans with (Q2Qc (2 # 100000) * (M * d))%Qc.
    - apply Qcmult_le_compat_r; apply Qclt_le_weak; assumption.
    - rewrite !(Qcmult_comm (Q2Qc (2 # 100000))). apply Qcmult_le_compat_r; [exact Md|apply Qcleb_le; reflexivity]. }
  rewrite E in L. assert (K : (Q2Qc (2 # 100000) * (M * Q2Qc 1000))%Qc = (Q2Qc (1 # 50) * M)%Qc).
  { transitivity (Q2Qc (2 # 100000) * Q2Qc 1000 * M)%Qc; [ring|]. f_equal. apply Qceqb_eq. vm_compute. reflexivity. }
  rewrite K in L. assert (V : (Q2Qc (1 # 50) <= Q2Qc (1 # 2))%Qc) by (apply Qcleb_le; reflexivity).
  assert (V2 : (Q2Qc (1 # 2) + Q2Qc (1 # 2) = 1)%Qc) by (apply Qceqb_eq; reflexivity).
  set (f := Q2Qc (1 # 50)) in *. set (hf := Q2Qc (1 # 2)) in *. assert (V3 : (f < hf)%Qc) by (vm_compute; reflexivity). qcnra.
Qed.
Lemma moran_ends m : env_ok (N + 1) m -> en_p m = P -> two_ends (N + 1) m.
Proof using S0 S1 HN.
  intros E Em. assert (F0 : mget P 0 0 = 1q) by (unfold moran_raw; rewrite mget_mk by lia; reflexivity).
  assert (F1 : mget P N N = 1q). { unfold moran_raw; rewrite mget_mk by lia. destruct (Nat.eqb_spec N 0); [lia|]. rewrite Nat.eqb_refl. apply delta_refl. }
  assert (Dg : forall i, 0 < i < N -> (mget P i i <= 1 - Q2Qc (2 # 100000))%Qc).
  { intros i Hi. destruct (moran_cells i Hi) as (_ & _ & X & _). rewrite X. pose proof (moran_leaves i Hi). qclra. }
  assert (B : (1 - Q2Qc (2 # 100000) < 1)%Qc) by (vm_compute; reflexivity).
  split; try rewrite Em; try assumption; try lia.
  - intros k Hk. destruct (Nat.eq_dec k 0) as [->|N0]; [left; exact F0|]. destruct (Nat.eq_dec k N) as [->|N1]; [left; exact F1|]. right. apply Dg. lia.
  - replace (N + 1 - 1) with N by lia. exact F1.
  - intros i Hi X. pose proof (Dg i ltac:(lia)) as Y. rewrite X in Y. qclra.
  - intros i Hi. left. assert (R : forall k, k < N -> reach (N + 1) (edge P) k 0).
    { induction k as [|k IH]; intros Hk; [apply reach_refl; lia|]. apply (reach_trans (N + 1) _ (S k) k); [|apply IH; lia].
      apply reach_step; try lia. unfold edge. destruct (moran_cells (S k) ltac:(lia)) as (_ & X & _). replace (S k - 1) with k in X by lia. rewrite X.
      unfold mdown. apply Qc_div_pos; apply Qc_mul_pos; try (apply Qcn_pos; lia). apply den_pos; lia. }
    apply R. lia.
Qed.
End MORAN.
Lemma moran_fixation n s st c m : population_genetics_model Moran n s 0 0 st = Ok c -> (s < 1)%Qc -> en_p m = ch_p c -> let N := Z.to_nat n in env_ok (N + 1) m ->
  let h i := (ladder (1 / (1 - s)) i / ladder (1 / (1 - s)) N)%Qc in
  absorption_probabilities m = Ok (Some [tab (N - 1) (fun k => 1 - h (k + 1)%nat)%Qc; tab (N - 1) (fun k => h (k + 1)%nat)]) /\
  forall i, 0 < i < N -> tends (fun k => kstep (N + 1) (en_p m) k i N) (h i).
Proof.
  intros H Hs Em N E h. destruct (popgen_inv _ _ _ _ _ _ _ H) as (Hn & S0 & _).
  destruct (moran_valid n s 0 0 st c H (Qclt_le_weak _ _ Hs)) as (_ & _ & P). rewrite P in Em. fold N in Em.
  assert (HN : 2 <= N <= 500) by (unfold N; lia).
  pose proof (moran_ends N s HN S0 Hs m E Em) as TE.
  set (g := (1 / (1 - s))%Qc) in *. assert (D : (0 < 1 - s)%Qc) by qclra.
  assert (Dz : (1 - s)%Qc <> 0q) by (intros X; rewrite X in D; discriminate).
  assert (Gp : (0 < g)%Qc) by (apply Qc_div_pos; [reflexivity|exact D]).
  assert (EN : N + 1 - 1 = N) by lia. assert (EN2 : N + 1 - 2 = N - 1) by lia.
  assert (H0 : h 0 = 0q) by (unfold h, ladder; cbn [sumn]; unfold Qcdiv; ring).
  assert (H1 : h (N + 1 - 1) = 1q). { rewrite EN. unfold h. apply Qc_div_self. pose proof (ladder_pos g N (Qclt_le_weak _ _ Gp) ltac:(lia)) as X. intros Y. rewrite Y in X. discriminate. }
  assert (Hh : forall i, 0 < i < N + 1 - 1 -> sumn (N + 1) (fun j => mget (en_p m) i j * h j)%Qc = h i).
  { intros i Hi. rewrite EN in Hi. destruct (moran_cells N s HN Hs i Hi) as (U & L & Dg & Z). rewrite Em.
    pose proof (ladder_harmonic (N + 1) (moran_raw N s 0 0) g i (mup N s i) (mdown N s i) ltac:(lia) (Qclt_le_weak _ _ Gp) U L Dg Z) as X. rewrite EN in X. apply X.
    unfold mup. fold (mdown N s i). unfold g. transitivity (1 / (1 - s) * (1 - s) * mdown N s i)%Qc; [rewrite Qc_div_mul by exact Dz|]; ring. }
  split.
  - rewrite (ends_values (N + 1) m TE h H0 H1 Hh), EN2. f_equal. f_equal. f_equal; [|f_equal]; apply tab_ext; intros k _; rewrite Nat.add_1_r; reflexivity.
  - intros i Hi. pose proof (ends_limit (N + 1) m TE h H0 H1 Hh i ltac:(lia)) as L. rewrite EN in L. exact L.
Qed.

(** * Wright-Fisher *)
Lemma wf_neutral N i : 0 < i < N -> wf_ps N 0 0 0 i = (Qcn i / Qcn N)%Qc.
Proof.
  intros Hi. assert (Np : (0 < Qcn N)%Qc) by (apply Qcn_pos; lia). assert (X : (Qcn i / Qcn N < 1)%Qc) by (apply Qc_div_lt_1; [exact Np|apply Qcn_lt; lia]).
  unfold wf_ps. set (x := (Qcn i / Qcn N)%Qc) in *.
  assert (E1 : wf_pm N 0 0 i = x) by (unfold wf_pm; fold x; ring). unfold wf_den. rewrite E1.
  assert (E2 : (x * (1 + 0) / (x * (1 + 0) - x + 1))%Qc = x).
  { replace (x * (1 + 0) - x + 1)%Qc with 1q by ring. unfold Qcdiv. change (/ 1)%Qc with 1q. ring. }
  rewrite E2. unfold Qcmin. destruct (Qcleb_spec x 1); [reflexivity|]. exfalso. qclra.
Qed.
Lemma pmf_half n i : 0 < i < n -> let x := (Qcn i / Qcn n)%Qc in (binom_pmf n i x <= Q2Qc (2 # 3))%Qc.
Proof.
  intros Hi x. assert (Np : (0 < Qcn n)%Qc) by (apply Qcn_pos; lia). assert (Nz : Qcn n <> 0q) by (apply Qcn_nz; lia).
  assert (X1 : (x < 1)%Qc) by (apply Qc_div_lt_1; [exact Np|apply Qcn_lt; lia]).
  assert (X0 : (0 < x)%Qc) by (apply Qc_div_pos; [apply Qcn_pos; lia|exact Np]).
  assert (Ex : (x * Qcn n = Qcn i)%Qc) by (apply Qc_div_mul, Nz).
  assert (R : (Qcn (S i) * binom_pmf n (S i) x = Qcn i * binom_pmf n i x)%Qc).
  { unfold binom_pmf. cbn [M_Generators.qpow]. replace (n - i) with (S (n - S i)) by lia. cbn [M_Generators.qpow].
    pose proof (Qcn_absorb n i ltac:(lia)) as A. set (q1 := qpow x i). set (q2 := qpow (1 - x) (n - S i)).
    transitivity (Qcn (S i) * Qcn (binom n (S i)) * (x * q1 * q2))%Qc; [ring|]. rewrite A, <- Ex. ring. }
  assert (T : (binom_pmf n i x + binom_pmf n (S i) x <= 1)%Qc).
  { rewrite <- (binom_pmf_sum n x). assert (NN : forall k, (0 <= binom_pmf n k x)%Qc) by (intros k; apply binom_pmf_nonneg; split; apply Qclt_le_weak; assumption).
    replace (n + 1) with (i + (2 + (n - S i))) by lia. rewrite !sumn_split. cbn [sumn]. replace (i + 0) with i by lia. rewrite Nat.add_1_r.
    pose proof (sumn_nonneg i (fun k => binom_pmf n k x) ltac:(intros; apply NN)).
    pose proof (sumn_nonneg (n - S i) (fun k => binom_pmf n (i + (2 + k)) x) ltac:(intros; apply NN)). cbv beta in *. qclra. }
  assert (Ii : (Qcn (S i) <= (1 + 1) * Qcn i)%Qc).
  { rewrite Qcn_S. assert (1 <= Qcn i)%Qc by (rewrite <- Qcn_1; apply Qcn_le; lia). qclra. }
  assert (Ip : (0 < Qcn i)%Qc) by (apply Qcn_pos; lia).
  assert (NN : (0 <= binom_pmf n (S i) x)%Qc) by (apply binom_pmf_nonneg; split; apply Qclt_le_weak; assumption).
  set (a := binom_pmf n i x) in *. set (b := binom_pmf n (S i) x) in *. set (y := Qcn (S i)) in *. set (z := Qcn i) in *.
  assert (K : (z * a <= z * ((1 + 1) * b))%Qc) by (rewrite <- R; qcnra).
  assert (K2 : (a <= (1 + 1) * b)%Qc) by (destruct (Qclt_le_dec ((1 + 1) * b) a) as [Q|Q]; [exfalso; qcnra|exact Q]).
  assert (T3 : (Q2Qc (2 # 3) * (1 + 1 + 1) = 1 + 1)%Qc) by (apply Qceqb_eq; reflexivity). set (f := Q2Qc (2 # 3)) in *. qclra.
Qed.
Lemma wf_cells N i j : 0 < i < N -> j < N + 1 -> mget (wf_raw N 0 0 0) i j = binom_pmf N j (Qcn i / Qcn N)%Qc.
Proof.
  intros Hi Hj. unfold wf_raw. rewrite mget_mk by lia. destruct (Nat.eqb_spec i 0); [lia|]. destruct (Nat.eqb_spec i N); [lia|]. rewrite wf_neutral by exact Hi. reflexivity.
Qed.
Lemma wf_ends N m : 2 <= N -> env_ok (N + 1) m -> en_p m = wf_raw N 0 0 0 -> two_ends (N + 1) m.
Proof.
  intros HN E Em. assert (F0 : mget (wf_raw N 0 0 0) 0 0 = 1q) by (unfold wf_raw; rewrite mget_mk by lia; reflexivity).
  assert (F1 : mget (wf_raw N 0 0 0) N N = 1q). { unfold wf_raw; rewrite mget_mk by lia. destruct (Nat.eqb_spec N 0); [lia|]. rewrite Nat.eqb_refl. apply delta_refl. }
  assert (Dg : forall i, 0 < i < N -> (mget (wf_raw N 0 0 0) i i <= 1 - Q2Qc (2 # 100000))%Qc).
  { intros i Hi. rewrite wf_cells by lia. apply Qcle_trans with (Q2Qc (2 # 3)); [apply pmf_half, Hi|apply Qcleb_le; vm_compute; reflexivity]. }
  assert (B : (1 - Q2Qc (2 # 100000) < 1)%Qc) by (vm_compute; reflexivity).
  split; try rewrite Em; try assumption; try lia.
  - intros k Hk. destruct (Nat.eq_dec k 0) as [->|N0]; [left; exact F0|]. destruct (Nat.eq_dec k N) as [->|N1]; [left; exact F1|]. right. apply Dg. lia.
  - replace (N + 1 - 1) with N by lia. exact F1.
  - intros i Hi X. pose proof (Dg i ltac:(lia)) as Y. rewrite X in Y. qclra.
  - intros i Hi. left. apply reach_step; try lia. unfold edge. rewrite wf_cells by lia. unfold binom_pmf. rewrite binom_0, Qcn_1. cbn [M_Generators.qpow].
    assert (X1 : (0 < 1 - Qcn i / Qcn N)%Qc). { assert (Qcn i / Qcn N < 1)%Qc by (apply Qc_div_lt_1; [apply Qcn_pos; lia|apply Qcn_lt; lia]). set (x := (Qcn i / Qcn N)%Qc) in *. qclra. }
    apply Qc_mul_pos; [reflexivity|]. generalize (N - 0). intros k. induction k as [|k IH]; [reflexivity|]. cbn [M_Generators.qpow]. apply Qc_mul_pos; assumption.
Qed.
Lemma wf_fixation n st c m : population_genetics_model WrightFisher n 0 0 0 st = Ok c -> en_p m = ch_p c -> let N := Z.to_nat n in env_ok (N + 1) m ->
  let h i := (Qcn i / Qcn N)%Qc in
  absorption_probabilities m = Ok (Some [tab (N - 1) (fun k => 1 - h (k + 1)%nat)%Qc; tab (N - 1) (fun k => h (k + 1)%nat)]) /\
  forall i, 0 < i < N -> tends (fun k => kstep (N + 1) (en_p m) k i N) (h i).
Proof.
  intros H Em N E h. destruct (popgen_inv _ _ _ _ _ _ _ H) as (Hn & _). destruct (wright_fisher_valid n 0 0 0 st c H) as (_ & _ & P). rewrite P in Em. fold N in Em.
  assert (HN : 2 <= N) by (unfold N; lia). pose proof (wf_ends N m HN E Em) as TE.
  assert (EN : N + 1 - 1 = N) by lia. assert (EN2 : N + 1 - 2 = N - 1) by lia. assert (Nz : Qcn N <> 0q) by (apply Qcn_nz; lia).
  assert (H0 : h 0 = 0q) by (unfold h; rewrite Qcn_0; unfold Qcdiv; ring).
  assert (H1 : h (N + 1 - 1) = 1q) by (rewrite EN; apply Qc_div_self, Nz).
  assert (Hh : forall i, 0 < i < N + 1 - 1 -> sumn (N + 1) (fun j => mget (en_p m) i j * h j)%Qc = h i).
  { intros i Hi. rewrite EN in Hi. rewrite Em. rewrite (sumn_ext _ _ (fun j => binom_pmf N j (Qcn i / Qcn N) * Qcn j / Qcn N)%Qc).
    - rewrite sumn_div, binom_pmf_mean. unfold h. apply (Qc_mul_cancel_r _ _ (Qcn N) Nz). rewrite Qc_div_mul by exact Nz. ring.
    - intros j Hj. rewrite wf_cells by lia. unfold h, Qcdiv. ring. }
  split.
  - rewrite (ends_values (N + 1) m TE h H0 H1 Hh), EN2. f_equal. f_equal. f_equal; [|f_equal]; apply tab_ext; intros k _; rewrite Nat.add_1_r; reflexivity.
  - intros i Hi. pose proof (ends_limit (N + 1) m TE h H0 H1 Hh i ltac:(lia)) as L. rewrite EN in L. exact L.
Qed.
