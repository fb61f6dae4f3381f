(** L_FloatNorm: normalised rows in doubles. *)
From Coq Require Import Reals Lra Lia List ZArith Permutation Bool.
From Flocq Require Import Core.
From Verif Require Import Fl M_Float S_Float L_Float1 L_Float2 M_FloatNorm S_FloatNorm.
Import ListNotations.
Local Open Scope R_scope.

(** ** a computed sum of non-negative doubles is at least each of them *)
Lemma fsum_ge l v : fsum l v -> (forall x, In x l -> dnn x) -> forall x, In x l -> x <= v.
Proof.
  induction 1 as [|y|l l1 l2 v1 v2 P F1 I1 F2 I2]; intros D x I.
  - destruct I.
  - destruct I as [->|[]]; lra.
  - assert (D1 : forall x, In x l1 -> dnn x).
    { intros z Z. apply D. apply (Permutation_in z (Permutation_sym P)). apply in_or_app. now left. }
    assert (D2 : forall x, In x l2 -> dnn x).
    { intros z Z. apply D. apply (Permutation_in z (Permutation_sym P)). apply in_or_app. now right. }
    destruct (fsum_bounds _ _ F1 D1) as [[V1 N1] _]. destruct (fsum_bounds _ _ F2 D2) as [[V2 N2] _].
    apply (Permutation_in x P) in I. apply in_app_or in I. destruct I as [I|I].
    + eapply Rle_trans; [apply (I1 D1 x I)|]. rewrite <- (rnd_id v1 V1) at 1. apply rnd_le; lra.
    + eapply Rle_trans; [apply (I2 D2 x I)|]. rewrite <- (rnd_id v2 V2) at 1. apply rnd_le; lra.
Qed.

Lemma row_ge sm n f j : summing sm -> (forall j, (j < n)%nat -> dnn (f j)) -> (j < n)%nat -> f j <= sm (frow n f).
Proof.
  intros S D J. apply (fsum_ge _ _ (S (frow n f))).
  - intros x I. destruct (in_frow _ _ _ I) as (l & L & ->). auto.
  - unfold frow. apply in_map. apply in_seq. lia.
Qed.

(** ** one row *)
Section Row.
Variables (sm : list R -> R) (n : nat) (f : nat -> R).
Hypothesis S : summing sm.
Hypothesis N : INR n <= 1000000000.
Hypothesis D : forall j, (j < n)%nat -> dnn (f j).
Hypothesis P : exists j, (j < n)%nat /\ 0 < f j.

Lemma total_pos : 0 < rsumn n f.
Proof.
  destruct P as (j & J & Q). eapply Rlt_le_trans; [exact Q|]. apply rsumn_in; auto. intros i I. apply D; auto.
Qed.
Lemma n_pos : 1 <= INR n.
Proof. destruct P as (j & J & _). apply (le_INR 1). lia. Qed.

Lemma nu : 0 <= INR n * uu <= / 9000000 /\ uu <= INR n * uu.
Proof.
  pose proof n_pos. pose proof uu_pos. split; [split|].
  - apply Rmult_le_pos; lra.
  - rewrite uu_val. lra.
  - nra.
Qed.

Lemma quot_bounds j : (j < n)%nat ->
  f j / rsumn n f * (1 - 2 * (INR n * uu)) <= f j / sm (frow n f) <= f j / rsumn n f * (1 + 2 * (INR n * uu)) /\
  0 <= f j / sm (frow n f) <= 1 /\ 0 <= f j / rsumn n f.
Proof.
  intros J. destruct (row_bounds sm n f S D) as [[F _] [L U]].
  pose proof (row_ge sm n f j S D J) as G. destruct (D j J) as [_ Z].
  pose proof total_pos as T. pose proof nu as [X _].
  pose proof (hi_le n ltac:(lra)) as H. pose proof (lo_ge n) as Lo.
  set (v := sm (frow n f)) in *. set (s := rsumn n f) in *. set (x := INR n * uu) in *. set (w := f j) in *.
  clearbody v s x w.
  assert (U' : v <= (1 + 2 * x) * s) by (eapply Rle_trans; [exact U|]; apply Rmult_le_compat_r; lra).
  assert (L' : (1 - x) * s <= v) by (eapply Rle_trans; [|exact L]; apply Rmult_le_compat_r; lra).
  assert (V : 0 < v) by (eapply Rlt_le_trans; [|exact L']; apply Rmult_lt_0_compat; lra).
  assert (Q : 0 <= w / s) by (apply Rmult_le_pos; [lra|left; now apply Rinv_0_lt_compat]).
  assert (W : w = w / s * s) by (field; lra). set (q := w / s) in *. clearbody q.
  assert (E : forall y, w / v <= y <-> w <= y * v).
  { intros y. split; intros K.
    - apply (Rmult_le_compat_r v) in K; [|lra]. replace (w / v * v) with w in K by (field; lra). exact K.
    - apply (Rmult_le_reg_r v); [lra|]. replace (w / v * v) with w by (field; lra). exact K. }
  repeat split.
  - apply (Rmult_le_reg_r v); [lra|]. replace (w / v * v) with w by (field; lra). rewrite W.
    apply Rle_trans with (q * (1 - 2 * x) * ((1 + 2 * x) * s)).
    + apply Rmult_le_compat_l; [|exact U']. apply Rmult_le_pos; lra.
    + replace (q * (1 - 2 * x) * ((1 + 2 * x) * s)) with (q * s * (1 - 4 * (x * x))) by ring.
      rewrite <- (Rmult_1_r (q * s)) at 2. apply Rmult_le_compat_l; [apply Rmult_le_pos; lra|]. nra.
  - apply E. rewrite W. apply Rle_trans with (q * (1 + 2 * x) * ((1 - x) * s)).
    + replace (q * (1 + 2 * x) * ((1 - x) * s)) with (q * s * (1 + x * (1 - 2 * x))) by ring.
      rewrite <- (Rmult_1_r (q * s)) at 1. apply Rmult_le_compat_l; [apply Rmult_le_pos; lra|]. nra.
    + apply Rmult_le_compat_l; [|exact L']. apply Rmult_le_pos; lra.
  - apply Rmult_le_pos; [lra|left; now apply Rinv_0_lt_compat].
  - apply E. lra.
  - exact Q.
Qed.

Lemma share_near j : (j < n)%nat ->
  f j / rsumn n f * (1 - 4 * (INR n * uu)) - tiny <= rnd (f j / sm (frow n f)) <=
  f j / rsumn n f * (1 + 4 * (INR n * uu)) + tiny.
Proof.
  intros J. destruct (quot_bounds j J) as ([L U] & [Q0 Q1] & Z). pose proof nu as [X XU]. pose proof uu_pos as UP.
  pose proof (rnd_0_up _ Q0) as RU. pose proof (rnd_0_lo _ Q0) as RL.
  set (q := f j / sm (frow n f)) in *. set (p := f j / rsumn n f) in *. set (x := INR n * uu) in *. clearbody q p x.
  split.
  - eapply Rle_trans; [|exact RL]. apply Rplus_le_compat_r.
    apply Rle_trans with (p * (1 - 2 * x) * (1 - uu)).
    + rewrite Rmult_assoc. apply Rmult_le_compat_l; [exact Z|]. nra.
    + apply Rmult_le_compat_r; lra.
  - eapply Rle_trans; [exact RU|]. apply Rplus_le_compat_r.
    apply Rle_trans with (p * (1 + 2 * x) * (1 + uu)).
    + apply Rmult_le_compat_r; lra.
    + rewrite Rmult_assoc. apply Rmult_le_compat_l; [exact Z|]. nra.
Qed.

Lemma share_range j : (j < n)%nat -> is_double (rnd (f j / sm (frow n f))) /\ 0 <= rnd (f j / sm (frow n f)) <= 1.
Proof.
  intros J. destruct (quot_bounds j J) as (_ & [Q0 Q1] & _).
  split; [apply is_double_rnd|]. split; [now apply rnd_nonneg|now apply rnd_le_1].
Qed.

Lemma share_total : rsumn n (fun j => f j / rsumn n f) = 1.
Proof.
  rewrite (rsumn_ext n _ (fun j => / rsumn n f * f j)) by (intros; unfold Rdiv; ring).
  rewrite rsumn_scal. apply Rinv_l. pose proof total_pos. lra.
Qed.

Lemma share_sums sm' : summing sm' -> f_close1 (sm' (frow n (fun j => rnd (f j / sm (frow n f))))).
Proof.
  intros S'.
  destruct (row_bounds sm' n (fun j => rnd (f j / sm (frow n f))) S') as [[F _] [L U]].
  { intros j J. destruct (share_range j J) as (A & B & _). now split. }
  apply close_in; [exact F|]. pose proof nu as [X XU]. pose proof uu_pos as UP. pose proof tiny_uu as TU. pose proof tiny_pos as TP.
  pose proof n_pos as NP.
  assert (SU : rsumn n (fun j => rnd (f j / sm (frow n f))) <= 1 + 5 * (INR n * uu)).
  { eapply Rle_trans; [apply (rsumn_le n _ (fun j => (1 + 4 * (INR n * uu)) * (f j / rsumn n f) + tiny)); intros j J;
      destruct (share_near j J) as [_ K]; rewrite (Rmult_comm (1 + _)); exact K|].
    rewrite rsumn_add, rsumn_const, rsumn_scal, share_total. nra. }
  assert (SL : 1 - 5 * (INR n * uu) <= rsumn n (fun j => rnd (f j / sm (frow n f)))).
  { eapply Rle_trans; [|apply (rsumn_le n (fun j => (1 - 4 * (INR n * uu)) * (f j / rsumn n f) + - tiny)); intros j J;
      destruct (share_near j J) as [K _]; rewrite (Rmult_comm (1 - _)); exact K].
    rewrite rsumn_add, rsumn_const, rsumn_scal, share_total. nra. }
  pose proof (hi_le n ltac:(lra)) as H. pose proof (lo_ge n) as Lo. pose proof (lo_pos n). pose proof (hi_pos n).
  set (s := rsumn n (fun j => rnd (f j / sm (frow n f)))) in *. set (v := sm' _) in *. set (x := INR n * uu) in *. clearbody s v x.
  assert (v <= (1 + 2 * x) * (1 + 5 * x)) by (eapply Rle_trans; [exact U|]; apply Rmult_le_compat; lra).
  assert ((1 - x) * (1 - 5 * x) <= v) by (eapply Rle_trans; [|exact L]; apply Rmult_le_compat; lra).
  apply Rabs_le. nra.
Qed.
End Row.

(** ** blank rows *)
Lemma blank_spec k f : f_blank k f = true <-> (forall j, (j < k)%nat -> f j = 0).
Proof.
  unfold f_blank. rewrite forallb_forall. split.
  - intros H j J. specialize (H (f j)). destruct (Req_EM_T (f j) 0); auto.
    assert (I : In (f j) (frow k f)) by (unfold frow; apply in_map, in_seq; lia). specialize (H I). discriminate.
  - intros H x I. destruct (in_frow _ _ _ I) as (j & J & ->). rewrite (H j J). destruct (Req_EM_T 0 0); congruence.
Qed.
Lemma not_blank k f : f_blank k f = false -> exists j, (j < k)%nat /\ f j <> 0.
Proof.
  unfold f_blank. intros H.
  assert (X : exists x, In x (frow k f) /\ x <> 0).
  { revert H. generalize (frow k f). induction l as [|x l IH]; simpl; [discriminate|].
    destruct (Req_EM_T x 0) as [E|E]; simpl; intros H.
    - destruct (IH H) as (y & I & Y). exists y. split; [now right|exact Y].
    - exists x. split; [now left|exact E]. }
  destruct X as (x & I & X). destruct (in_frow _ _ _ I) as (j & J & ->). exists j. now split.
Qed.

Lemma fill_row k m i : (0 < k)%nat -> (forall j, (j < k)%nat -> dnn (m i j)) ->
  (forall j, (j < k)%nat -> dnn (f_fill k m i j)) /\ (exists j, (j < k)%nat /\ 0 < f_fill k m i j).
Proof.
  intros K D. unfold f_fill. destruct (f_blank k (m i)) eqn:E.
  - split; [intros; split; [apply is_double_1|lra]|]. exists 0%nat. split; [exact K|lra].
  - split; [exact D|]. destruct (not_blank _ _ E) as (j & J & Z). exists j. split; [exact J|].
    destruct (D j J) as [_ G]. lra.
Qed.

Lemma shares_emission sm sm' r k m : summing sm -> summing sm' -> (2 <= k)%nat -> INR k <= 1000000000 ->
  (forall i j, (i < r)%nat -> (j < k)%nat -> is_double (m i j) /\ 0 <= m i j) ->
  f_accepts_emission sm' r k (f_shares sm k m).
Proof.
  intros S S' K N D. split; [exact K|]. split.
  - intros i j I J. destruct (fill_row k m i) as [A B]; [lia|exact (fun j => D i j I)|].
    apply (share_range sm k (f_fill k m i) S N A B j J).
  - intros i I. destruct (fill_row k m i) as [A B]; [lia|exact (fun j => D i j I)|].
    apply (share_sums sm k (f_fill k m i) S N A B sm' S').
Qed.

Theorem shares_accepted sm sm' n m : summing sm -> summing sm' -> (2 <= n)%nat -> INR n <= 1000000000 ->
  (forall i j, (i < n)%nat -> (j < n)%nat -> is_double (m i j) /\ 0 <= m i j) ->
  f_accepts sm' n (f_shares sm n m).
Proof. intros. now apply shares_emission. Qed.

Theorem normalized_accepted sm sm' n m : summing sm -> summing sm' -> (2 <= n)%nat -> INR n <= 1000000000 ->
  (forall i j, (i < n)%nat -> (j < n)%nat -> is_double (m i j) /\ 0 <= m i j) ->
  (forall i, (i < n)%nat -> exists j, (j < n)%nat /\ 0 < m i j) ->
  f_accepts sm' n (f_normalize sm n m).
Proof.
  intros S S' K N D P. split; [exact K|]. split.
  - intros i j I J. apply (share_range sm n (m i) S N (fun j => D i j I) (P i I) j J).
  - intros i I. apply (share_sums sm n (m i) S N (fun j => D i j I) (P i I) sm' S').
Qed.

Theorem shares_accurate sm k m i j x : summing sm -> INR k <= 1000000000 ->
  (forall l, (l < k)%nat -> is_double (m i l) /\ 0 <= m i l) -> (j < k)%nat -> is_share k (m i) j x ->
  Rabs (f_shares sm k m i j - x) <= 4 * INR k * uu * x + tiny.
Proof.
  intros S N D J H.
  destruct (fill_row k m i) as [A B]; [lia|exact D|].
  pose proof (share_near sm k (f_fill k m i) S N A B j J) as E.
  assert (X : f_fill k m i j / rsumn k (f_fill k m i) = x).
  { unfold f_fill in *. destruct H as [[Z ->]|[[l [L G]] W]].
    - assert (Y : f_blank k (m i) = true) by now apply blank_spec. rewrite Y.
      rewrite rsumn_const. unfold Rdiv. rewrite Rmult_1_l, Rmult_1_r. reflexivity.
    - destruct (f_blank k (m i)) eqn:Y.
      + apply (proj1 (blank_spec k (m i))) with (j := l) in Y; [lra|exact L].
      + rewrite (rsumn_ext k (fun j => m i j) (m i)) by reflexivity. rewrite <- W.
        assert (0 < rsumn k (m i)); [|field; lra].
        eapply Rlt_le_trans; [exact G|]. apply rsumn_in; auto. intros; now apply D. }
  rewrite X in E. unfold f_shares, f_normalize. apply Rabs_le. destruct E. split; lra.
Qed.

(** ** what happens to single weights *)
Theorem shares_zero sm k m i j : (exists l, (l < k)%nat /\ m i l <> 0) -> m i j = 0 -> f_shares sm k m i j = 0.
Proof.
  intros (l & L & Z) E. unfold f_shares, f_normalize.
  assert (Y : f_blank k (m i) = false).
  { destruct (f_blank k (m i)) eqn:Y; auto. apply (proj1 (blank_spec k (m i))) with (j := l) in Y; [lra|exact L]. }
  unfold f_fill. rewrite Y, E. unfold Rdiv. rewrite Rmult_0_l. apply rnd_0.
Qed.

Theorem shares_kept sm k m i j : summing sm -> INR k <= 1000000000 ->
  (forall l, (l < k)%nat -> is_double (m i l) /\ 0 <= m i l) -> (j < k)%nat ->
  bpow radix2 (-1073) * rsumn k (m i) <= m i j -> 0 < m i j -> 0 < f_shares sm k m i j.
Proof.
  intros S N D J B P.
  assert (T : 0 < rsumn k (m i)) by (eapply Rlt_le_trans; [exact P|]; apply rsumn_in; auto; intros; now apply D).
  assert (W : m i j / rsumn k (m i) * rsumn k (m i) = m i j) by (field; lra).
  assert (Q : bpow radix2 (-1073) <= m i j / rsumn k (m i)).
  { apply (Rmult_le_reg_r (rsumn k (m i))); [exact T|]. rewrite W. exact B. }
  assert (IS : is_share k (m i) j (m i j / rsumn k (m i))).
  { right. split; [exists j; now split|exact W]. }
  pose proof (shares_accurate sm k m i j _ S N D J IS) as E.
  assert (X : 4 * INR k * uu <= / 2) by (rewrite uu_val; lra).
  assert (T4 : bpow radix2 (-1073) = 4 * tiny).
  { unfold tiny. change (-1073)%Z with (2 + -1075)%Z. rewrite bpow_plus. generalize (bpow radix2 (-1075)); intros b.
    change (bpow radix2 2) with 4. reflexivity. }
  rewrite T4 in Q. pose proof tiny_pos. apply Rabs_le_inv in E.
  set (q := m i j / rsumn k (m i)) in *. clearbody q. destruct E as [E _]. nra.
Qed.

(** a positive weight can vanish *)
Definition thin : fmat := fun i j =>
  match i, j with 0%nat, 0%nat => bpow radix2 (-1074) | 0%nat, _ => 4 | _, 0%nat => 1 | _, _ => 1 end.
Lemma thin_ok : forall i j, (i < 2)%nat -> (j < 2)%nat -> is_double (thin i j) /\ 0 < thin i j.
Proof.
  intros i j _ _. assert (F4 : is_double 4) by (apply (is_double_bpow 2); lia).
  destruct i as [|i], j as [|j]; cbn [thin].
  - split; [apply is_double_bpow; lia|apply bpow_gt_0].
  - split; [exact F4|lra].
  - split; [apply is_double_1|lra].
  - split; [apply is_double_1|lra].
Qed.
Theorem thin_vanishes sm : summing sm -> f_shares sm 2 thin 0%nat 0%nat = 0.
Proof.
  intros S. unfold f_shares, f_normalize.
  assert (D : forall j, (j < 2)%nat -> dnn (thin 0%nat j)).
  { intros j J. destruct (thin_ok 0 j ltac:(lia) J). split; [exact H|lra]. }
  assert (Y : f_blank 2 (thin 0%nat) = false).
  { destruct (f_blank 2 (thin 0%nat)) eqn:Y; auto.
    apply (proj1 (blank_spec 2 (thin 0%nat))) with (j := 1%nat) in Y; [cbn [thin] in Y; lra|lia]. }
  assert (F : f_fill 2 thin 0%nat = thin 0%nat) by (unfold f_fill; rewrite Y; reflexivity).
  rewrite F. pose proof (row_ge sm 2 (thin 0%nat) 1 S D ltac:(lia)) as G. cbn [thin] in G.
  change (thin 0%nat 0%nat) with (bpow radix2 (-1074)). rewrite <- tiny2. pose proof tiny_pos as T.
  set (v := sm _) in *. clearbody v. assert (V : 0 < v) by lra.
  apply rnd_tiny.
  - apply Rmult_le_pos; [lra|left; now apply Rinv_0_lt_compat].
  - apply (Rmult_lt_reg_r v); [exact V|]. replace (2 * tiny / v * v) with (2 * tiny) by (field; lra). nra.
Qed.

(** ** counts *)
Lemma filter_length_le' (A : Type) (p : A -> bool) l : (length (filter p l) <= length l)%nat.
Proof. induction l as [|x l IH]; simpl; [lia|]. destruct (p x); simpl; lia. Qed.
Definition occ (a b : nat) (l : list (nat * nat)) : nat :=
  length (filter (fun ab => andb (Nat.eqb a (fst ab)) (Nat.eqb b (snd ab))) l).
Lemma is_double_nat c : (Z.of_nat c <= 2 ^ 53)%Z -> is_double (INR c).
Proof.
  intros H. destruct (Z.eq_dec (Z.of_nat c) (2 ^ 53)) as [E|E].
  - rewrite INR_IZR_INZ, E. change (IZR (2 ^ 53)) with (bpow radix2 53). apply is_double_bpow; lia.
  - apply generic_format_FLT. exists (Float radix2 (Z.of_nat c) 0).
    + unfold F2R; simpl. rewrite Rmult_1_r. apply INR_IZR_INZ.
    + simpl Fnum. rewrite Z.abs_eq by lia. change (radix2 ^ 53)%Z with (2 ^ 53)%Z. lia.
    + simpl; lia.
Qed.

Lemma tally_dnn l : forall m, (forall i j, dnn (m i j)) -> forall i j, dnn (fold_left f_bump l m i j).
Proof.
  induction l as [|ab l IH]; intros m H i j; simpl; [apply H|]. apply IH. intros i' j'. unfold f_bump.
  destruct (andb _ _); [|apply H]. split; [apply is_double_rnd|]. apply rnd_nonneg. destruct (H i' j'). lra.
Qed.
Lemma dnn_0 : dnn 0. Proof. split; [apply is_double_0|lra]. Qed.

Lemma tally_from l : forall (m : fmat) (c : nat -> nat -> nat),
  (forall i j, m i j = INR (c i j)) -> (forall i j, (Z.of_nat (c i j + length l) <= 2 ^ 53)%Z) ->
  forall i j, fold_left f_bump l m i j = INR (c i j + occ i j l).
Proof.
  induction l as [|ab l IH]; intros m c H B i j; simpl fold_left.
  - cbn. rewrite Nat.add_0_r. apply H.
  - rewrite (IH _ (fun i j => c i j + (if andb (Nat.eqb i (fst ab)) (Nat.eqb j (snd ab)) then 1 else 0))%nat).
    + f_equal. unfold occ; cbn [filter]. destruct (andb _ _); cbn [length]; lia.
    + intros i' j'. unfold f_bump. rewrite H. destruct (andb _ _).
      * rewrite plus_INR. change (INR 1) with 1. apply rnd_id. change 1 with (INR 1). rewrite <- plus_INR.
        apply is_double_nat. specialize (B i' j'). cbn [length] in B. lia.
      * now rewrite Nat.add_0_r.
    + intros i' j'. specialize (B i' j'). cbn [length] in B. destruct (andb _ _); lia.
Qed.
Lemma tally_exact l : (Z.of_nat (length l) <= 2 ^ 53)%Z -> forall i j, f_tally l i j = INR (occ i j l).
Proof.
  intros B i j. unfold f_tally. rewrite (tally_from l _ (fun _ _ => 0%nat)); [reflexivity| |].
  - intros; reflexivity.
  - intros; cbn [Nat.add]; exact B.
Qed.

Lemma occ_follows a b s : occ a b (combine (removelast s) (tl s)) = follows a b s.
Proof.
  induction s as [|x s IH]; [reflexivity|]. destruct s as [|y s]; [reflexivity|].
  change (removelast (x :: y :: s)) with (x :: removelast (y :: s)). cbn [tl combine].
  change (follows a b (x :: y :: s)) with
    ((if Nat.eqb x a then if Nat.eqb y b then 1 else 0 else 0) + follows a b (y :: s))%nat.
  rewrite <- IH. cbn [tl]. unfold occ at 1; cbn [filter fst snd].
  rewrite (Nat.eqb_sym a x), (Nat.eqb_sym b y).
  destruct (Nat.eqb x a), (Nat.eqb y b); reflexivity.
Qed.
Lemma occ_together a b s : forall t, occ a b (combine s t) = together a b s t.
Proof.
  induction s as [|x s IH]; intros [|y t]; try reflexivity.
  cbn [combine together]. rewrite <- IH. unfold occ at 1; cbn [filter fst snd].
  rewrite (Nat.eqb_sym a x), (Nat.eqb_sym b y).
  destruct (Nat.eqb x a), (Nat.eqb y b); reflexivity.
Qed.
Lemma pairs_length (s : list nat) : (length (combine (removelast s) (tl s)) <= length s)%nat.
Proof. rewrite combine_length. destruct s; simpl; lia. Qed.

Lemma smooth_dnn k l i j : dnn (f_smooth k (f_tally l) i j).
Proof.
  assert (H : dnn (f_tally l i j)) by (apply tally_dnn; intros; apply dnn_0).
  unfold f_smooth. destruct k; [|exact H]. split; [apply is_double_rnd|]. apply rnd_nonneg. destruct H as [_ H].
  assert (0 <= rnd (1 / 1000)) by (apply rnd_nonneg; lra). lra.
Qed.

Theorem fit_accepted sm sm' n k s : summing sm -> summing sm' -> (2 <= n)%nat -> INR n <= 1000000000 ->
  f_accepts sm' n (f_fit sm n k s).
Proof. intros S S' K N. apply shares_accepted; auto. intros i j _ _. apply smooth_dnn. Qed.

Theorem estimate_accepted sm sm' r k s t : summing sm -> summing sm' -> (2 <= k)%nat -> INR k <= 1000000000 ->
  f_accepts_emission sm' r k (f_estimate_emission sm k s t).
Proof. intros S S' K N. apply shares_emission; auto. intros i j _ _. apply (smooth_dnn false). Qed.

Lemma is_share_ext k f g j x : (j < k)%nat -> (forall l, (l < k)%nat -> f l = g l) -> is_share k f j x -> is_share k g j x.
Proof.
  intros J E [[Z X]|[[l [L P]] X]].
  - left. split; [|exact X]. intros l L. rewrite <- E by exact L. auto.
  - right. split; [exists l; rewrite <- E by exact L; now split|].
    rewrite <- (rsumn_ext k f g E), <- E by exact J. exact X.
Qed.

Theorem fit_accurate sm n s i j x : summing sm -> INR n <= 1000000000 -> (Z.of_nat (length s) <= 2 ^ 53)%Z ->
  (j < n)%nat -> is_share n (fun l => INR (follows i l s)) j x ->
  Rabs (f_fit sm n false s i j - x) <= 4 * INR n * uu * x + tiny.
Proof.
  intros S N L J H. apply shares_accurate; auto.
  - intros l _. apply smooth_dnn.
  - revert H. apply is_share_ext; [exact J|]. intros l _. unfold f_smooth.
    rewrite tally_exact, occ_follows; [reflexivity|]. pose proof (pairs_length s). lia.
Qed.

Theorem estimate_accurate sm k s t i j x : summing sm -> INR k <= 1000000000 -> (Z.of_nat (length s) <= 2 ^ 53)%Z ->
  (j < k)%nat -> is_share k (fun l => INR (together i l s t)) j x ->
  Rabs (f_estimate_emission sm k s t i j - x) <= 4 * INR k * uu * x + tiny.
Proof.
  intros S N L J H. apply shares_accurate; auto.
  - intros l _. apply (smooth_dnn false).
  - revert H. apply is_share_ext; [exact J|]. intros l _.
    rewrite tally_exact, occ_together; [reflexivity|]. rewrite combine_length. lia.
Qed.

(** ** smoothing *)
Lemma smooth_low l i j : bpow radix2 (-10) <= f_smooth true (f_tally l) i j.
Proof.
  assert (H : dnn (f_tally l i j)) by (apply tally_dnn; intros; apply dnn_0). destruct H as [_ H].
  assert (T : bpow radix2 (-10) <= rnd (1 / 1000)).
  { rewrite <- (rnd_id (bpow radix2 (-10))) by (apply is_double_bpow; lia). apply rnd_le. simpl. lra. }
  unfold f_smooth. rewrite <- (rnd_id (bpow radix2 (-10))) by (apply is_double_bpow; lia). apply rnd_le. lra.
Qed.
Lemma smooth_high l i j : (Z.of_nat (length l) <= 2 ^ 53)%Z -> f_smooth true (f_tally l) i j <= bpow radix2 54.
Proof.
  intros L. unfold f_smooth. rewrite tally_exact by exact L.
  rewrite <- (rnd_id (bpow radix2 54)) by (apply is_double_bpow; lia). apply rnd_le.
  assert (B : INR (occ i j l) <= bpow radix2 53).
  { rewrite INR_IZR_INZ. change (bpow radix2 53) with (IZR (2 ^ 53)). apply IZR_le.
    eapply Z.le_trans; [|exact L]. apply Nat2Z.inj_le. unfold occ. apply filter_length_le'. }
  assert (T : rnd (1 / 1000) <= 1) by (apply rnd_le_1; lra). simpl in *. lra.
Qed.
Theorem smooth_positive sm n s i j : summing sm -> INR n <= 1000000000 -> (Z.of_nat (length s) <= 2 ^ 53)%Z ->
  (j < n)%nat -> 0 < f_fit sm n true s i j.
Proof.
  intros S N L J. unfold f_fit. set (l := combine _ _).
  assert (LL : (Z.of_nat (length l) <= 2 ^ 53)%Z) by (pose proof (pairs_length s); unfold l; lia).
  clearbody l. pose proof (smooth_low l i j) as Lo. pose proof (bpow_gt_0 radix2 (-10)) as B0.
  apply shares_kept; auto.
  - intros k _. apply smooth_dnn.
  - eapply Rle_trans; [|exact Lo].
    assert (T : rsumn n (f_smooth true (f_tally l) i) <= INR n * bpow radix2 54).
    { rewrite <- rsumn_const. apply rsumn_le. intros k _. now apply smooth_high. }
    assert (N' : INR n <= bpow radix2 30) by (simpl; lra).
    apply Rle_trans with (bpow radix2 (-1073) * (bpow radix2 30 * bpow radix2 54)).
    + apply Rmult_le_compat_l; [apply bpow_ge_0|]. eapply Rle_trans; [exact T|].
      apply Rmult_le_compat_r; [apply bpow_ge_0|exact N'].
    + rewrite <- !bpow_plus. apply bpow_le. lia.
  - lra.
Qed.

Lemma smooth_near l i j : (Z.of_nat (length l) <= 2 ^ 53)%Z ->
  (INR (occ i j l) + 1 / 1000) * (1 - 3 * uu) <= f_smooth true (f_tally l) i j <= (INR (occ i j l) + 1 / 1000) * (1 + 3 * uu).
Proof.
  intros L. unfold f_smooth. rewrite tally_exact by exact L.
  assert (FC : is_double (INR (occ i j l))).
  { apply is_double_nat. eapply Z.le_trans; [|exact L]. apply Nat2Z.inj_le. unfold occ. apply filter_length_le'. }
  assert (FT : is_double (rnd (1 / 1000))) by apply is_double_rnd.
  pose proof (pos_INR (occ i j l)) as C.
  assert (TT : tiny <= / 10000 * uu).
  { apply Rle_trans with (bpow radix2 (-14) * uu); [|apply Rmult_le_compat_r; [pose proof uu_pos; lra|simpl; lra]].
    unfold tiny, uu. rewrite <- bpow_plus. apply bpow_le. lia. }
  pose proof (rnd_0_up (1 / 1000) ltac:(lra)) as U. pose proof (rnd_0_lo (1 / 1000) ltac:(lra)) as Lo.
  assert (T0 : 0 <= rnd (1 / 1000)) by (apply rnd_nonneg; lra).
  pose proof (rnd_add_up _ _ FC FT ltac:(lra)) as SU. pose proof (rnd_add_lo _ _ FC FT ltac:(lra)) as SL.
  pose proof uu_pos as UP. assert (UV : uu <= / 1000) by (rewrite uu_val; lra).
  set (c := INR (occ i j l)) in *. set (t := rnd (1 / 1000)) in *. clearbody c t. split; nra.
Qed.

Lemma share_perturb k (m w : nat -> R) j : (j < k)%nat -> (forall l, (l < k)%nat -> 0 < w l) ->
  (forall l, (l < k)%nat -> w l * (1 - 3 * uu) <= m l <= w l * (1 + 3 * uu)) ->
  w j / rsumn k w * (1 - 7 * uu) <= m j / rsumn k m <= w j / rsumn k w * (1 + 7 * uu).
Proof.
  intros J W B. pose proof uu_pos as UP. assert (UV : uu <= / 1000000) by (rewrite uu_val; lra).
  assert (SU : rsumn k m <= rsumn k w * (1 + 3 * uu)).
  { rewrite Rmult_comm, <- rsumn_scal. apply rsumn_le. intros l L. rewrite Rmult_comm. now apply B. }
  assert (SL : rsumn k w * (1 - 3 * uu) <= rsumn k m).
  { rewrite Rmult_comm, <- rsumn_scal. apply rsumn_le. intros l L. rewrite Rmult_comm. now apply B. }
  assert (T : 0 < rsumn k w).
  { eapply Rlt_le_trans; [apply (W j J)|]. apply rsumn_in; auto. intros l L. left. now apply W. }
  destruct (B j J) as [BL BU]. pose proof (W j J) as WJ.
  set (s := rsumn k w) in *. set (v := rsumn k m) in *. set (a := m j) in *. set (b := w j) in *. clearbody s v a b.
  assert (V : 0 < v) by (eapply Rlt_le_trans; [|exact SL]; apply Rmult_lt_0_compat; lra).
  assert (E : b = b / s * s) by (field; lra).
  assert (Q : 0 < b / s) by (apply Rmult_lt_0_compat; [exact WJ|now apply Rinv_0_lt_compat]).
  set (q := b / s) in *. clearbody q. subst b. 
  assert (QS : 0 < q * s) by (apply Rmult_lt_0_compat; lra).
  split; apply (Rmult_le_reg_r v); try exact V; replace (a / v * v) with a by (field; lra).
  - eapply Rle_trans; [|exact BL]. apply Rle_trans with (q * (1 - 7 * uu) * (s * (1 + 3 * uu))).
    + apply Rmult_le_compat_l; [apply Rmult_le_pos; lra|exact SU].
    + replace (q * (1 - 7 * uu) * (s * (1 + 3 * uu))) with (q * s * ((1 - 7 * uu) * (1 + 3 * uu))) by ring.
      apply Rmult_le_compat_l; [lra|]. nra.
  - eapply Rle_trans; [exact BU|]. apply Rle_trans with (q * (1 + 7 * uu) * (s * (1 - 3 * uu))).
    + replace (q * (1 + 7 * uu) * (s * (1 - 3 * uu))) with (q * s * ((1 + 7 * uu) * (1 - 3 * uu))) by ring.
      apply Rmult_le_compat_l; [lra|]. nra.
    + apply Rmult_le_compat_l; [apply Rmult_le_pos; lra|exact SL].
Qed.

Theorem smooth_accurate sm n s i j x : summing sm -> INR n <= 1000000000 -> (Z.of_nat (length s) <= 2 ^ 53)%Z ->
  (j < n)%nat -> is_share n (fun l => INR (follows i l s) + 1 / 1000) j x ->
  Rabs (f_fit sm n true s i j - x) <= 12 * INR n * uu * x + tiny.
Proof.
  intros S N L J H. unfold f_fit.
  assert (LL : (Z.of_nat (length (combine (removelast s) (tl s))) <= 2 ^ 53)%Z) by (pose proof (pairs_length s); lia).
  assert (NR : forall l, INR (follows i l s) + 1 / 1000 > 0) by (intros l; pose proof (pos_INR (follows i l s)); lra).
  set (m := f_smooth true (f_tally (combine (removelast s) (tl s)))).
  assert (B : forall l, (INR (follows i l s) + 1 / 1000) * (1 - 3 * uu) <= m i l <= (INR (follows i l s) + 1 / 1000) * (1 + 3 * uu)).
  { intros l. unfold m. rewrite <- occ_follows. now apply smooth_near. }
  assert (D : forall l, (l < n)%nat -> dnn (m i l)) by (intros l _; apply smooth_dnn).
  clearbody m.
  pose proof uu_pos as UP. assert (UV : uu <= / 1000000) by (rewrite uu_val; lra).
  assert (PM : forall l, 0 < m i l) by (intros l; specialize (NR l); destruct (B l) as [K _]; eapply Rlt_le_trans; [|exact K]; apply Rmult_lt_0_compat; lra).
  assert (T : 0 < rsumn n (m i)).
  { eapply Rlt_le_trans; [apply (PM j)|]. apply rsumn_in; auto. intros l _. left; apply PM. }
  assert (TW : 0 < rsumn n (fun l => INR (follows i l s) + 1 / 1000)).
  { eapply Rlt_le_trans; [apply (NR j)|]. apply (rsumn_in n (fun l => INR (follows i l s) + 1 / 1000)); auto.
    intros l _. left; apply NR. }
  assert (X : x = (INR (follows i j s) + 1 / 1000) / rsumn n (fun l => INR (follows i l s) + 1 / 1000)).
  { destruct H as [[Z _]|[_ E]]; [specialize (Z j J); specialize (NR j); lra|]. rewrite <- E. field. lra. }
  pose proof (share_perturb n (m i) (fun l => INR (follows i l s) + 1 / 1000) j J (fun l _ => NR l) (fun l _ => B l)) as Q.
  cbn beta in Q. rewrite <- X in Q.
  assert (XP : 0 < x).
  { rewrite X. apply Rmult_lt_0_compat; [apply NR|now apply Rinv_0_lt_compat]. }
  pose proof (shares_accurate sm n m i j (m i j / rsumn n (m i)) S N D J) as A.
  assert (IS : is_share n (m i) j (m i j / rsumn n (m i))).
  { right. split; [exists j; split; [exact J|apply PM]|]. field. lra. }
  specialize (A IS). clear X IS H. 
  assert (N1 : 1 <= INR n) by (apply (le_INR 1); lia).
  assert (NU : uu <= INR n * uu <= / 1000000) by (rewrite uu_val; lra).
  set (y := m i j / rsumn n (m i)) in *. set (z := INR n * uu) in *.
  replace (4 * INR n * uu * y) with (4 * (z * y)) in A by (unfold z; ring).
  replace (12 * INR n * uu * x) with (12 * (z * x)) by (unfold z; ring).
  set (f := f_shares sm n m i j) in *. clearbody f y z.
  apply Rabs_le_inv in A. destruct Q as [Q1 Q2]. destruct A as [A1 A2].
  assert (UX : uu * x <= z * x) by (apply Rmult_le_compat_r; lra).
  assert (ZY : z * y <= z * x * (1 + 7 * uu)).
  { rewrite Rmult_assoc. apply Rmult_le_compat_l; lra. }
  assert (ZX : 0 <= z * x) by (apply Rmult_le_pos; lra).
  assert (ZY2 : z * y <= 5 / 4 * (z * x)).
  { eapply Rle_trans; [exact ZY|]. rewrite Rmult_comm. apply Rmult_le_compat_r; lra. }
  apply Rabs_le. split; lra.
Qed.
