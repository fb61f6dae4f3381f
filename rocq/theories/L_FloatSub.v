(** L_FloatSub: subchains in doubles. *)
From Coq Require Import Reals Lra Lia List ZArith Bool Permutation.
From Flocq Require Import Core.
From Verif Require Import Fl M_Float S_Float L_Float1 L_Float2 L_Float3 M_FloatNorm S_FloatNorm L_FloatNorm L_FloatRed L_FloatMoran L_FloatUrn
  L_FloatCanon L_FloatDir M_FloatSub S_FloatSub.
Import ListNotations.
Local Open Scope R_scope.

Lemma rsum_zero l : (forall x, In x l -> x = 0) -> rsum l = 0.
Proof. induction l as [|a l IH]; intros H; [reflexivity|]. cbn [rsum]. rewrite (H a) by (left; reflexivity). rewrite IH by (intros x X; apply H; right; exact X). ring. Qed.
Lemma closed_sum n idx f : NoDup idx -> (forall i, In i idx -> (i < n)%nat) -> (forall j, (j < n)%nat -> ~ In j idx -> f j = 0) ->
  rsumn (length idx) (fun j => f (nth j idx 0%nat)) = rsumn n f.
Proof.
  intros ND L Z. unfold rsumn. rewrite map_nth_seq.
  set (out := filter (fun k => if in_dec Nat.eq_dec k idx then false else true) (seq 0 n)).
  assert (O : forall k, In k out <-> (k < n)%nat /\ ~ In k idx).
  { intros k. unfold out. rewrite filter_In, in_seq. destruct (in_dec Nat.eq_dec k idx) as [i|i]; split; intros [A B]; try discriminate; try tauto; split; auto; try lia. }
  assert (P : Permutation (idx ++ out) (seq 0 n)).
  { apply NoDup_Permutation; [|apply seq_NoDup|].
    - assert (NO : NoDup out) by (apply NoDup_filter, seq_NoDup).
      assert (DJ : forall k, In k idx -> ~ In k out) by (intros k K X; apply O in X; tauto).
      clearbody out. clear - ND NO DJ. induction idx as [|a l IH]; [exact NO|]. inversion ND as [|? ? A B]; subst. simpl. constructor.
      + intros X. apply in_app_or in X. destruct X as [X|X]; [exact (A X)|exact (DJ a (or_introl eq_refl) X)].
      + apply IH; [exact B|]. intros k K. apply DJ. right. exact K.
    - intros k. rewrite in_app_iff, in_seq, O. split; [intros [K|[K _]]; [specialize (L k K)|]; lia|].
      intros [_ K]. destruct (in_dec Nat.eq_dec k idx) as [i|i]; [left; exact i|right; split; [lia|exact i]]. }
  rewrite <- (rsum_perm _ _ (Permutation_map f P)), map_app, rsum_app, (rsum_zero (map f out)).
  - ring.
  - intros x X. apply in_map_iff in X. destruct X as (k & <- & K). apply O in K. apply Z; tauto.
Qed.

Section Sub.
Variables (sm0 sm : list R -> R) (n : nat) (p : fmat) (idx : list nat).
Hypothesis S0 : summing sm0.
Hypothesis S1 : summing sm.
Hypothesis B : INR n <= 1000000000.
Hypothesis A : f_accepts sm0 n p.
Hypothesis K : closed_states n p idx.
Hypothesis L2 : (2 <= length idx)%nat.
Let m := length idx.
Lemma m_le : INR m <= 1000000000.
Proof.
  destruct K as (ND & L & _). assert (I : incl idx (seq 0 n)) by (intros k H; apply in_seq; specialize (L k H); lia).
  pose proof (NoDup_incl_length ND I) as Q. rewrite seq_length in Q. apply le_INR in Q. fold m in Q. lra.
Qed.
Lemma old i : (i < m)%nat -> (nth i idx 0 < n)%nat.
Proof. intros I. destruct K as (_ & L & _). apply L, nth_In, I. Qed.
Lemma sub_doubles i j : (i < m)%nat -> (j < m)%nat -> is_double (p (nth i idx 0%nat) (nth j idx 0%nat)) /\ 0 <= p (nth i idx 0%nat) (nth j idx 0%nat).
Proof. intros I J. destruct A as (_ & D & _). destruct (D _ _ (old i I) (old j J)) as [X Y]. split; [exact X|lra]. Qed.
Lemma sub_total i : (i < m)%nat -> Rabs (rsumn m (fun j => p (nth i idx 0%nat) (nth j idx 0%nat)) - 1) <= 11 / 1000000.
Proof.
  intros I. destruct K as (ND & L & Z). unfold m. rewrite (closed_sum n idx (p (nth i idx 0%nat)) ND L).
  2:{ intros j J H. apply Z; [apply nth_In, I|exact J|exact H]. }
  destruct A as (N & D & C). pose proof (old i I) as I'.
  destruct (row_bounds sm0 n (p (nth i idx 0%nat)) S0) as [[F _] [Lo Hi]]; [intros j J; destruct (D _ j I' J) as [X Y]; split; [exact X|lra]|].
  pose proof (Rabs_le_inv _ _ (close_out _ F (C _ I'))) as O.
  assert (T0 : 0 <= rsumn n (p (nth i idx 0%nat))) by (apply rsumn_nonneg; intros j J; destruct (D _ j I' J) as [X Y]; lra).
  set (v := sm0 _) in *. set (t := rsumn n _) in *. clearbody v t.
  pose proof uu_val as UV. pose proof uu_pos as UP. pose proof (pos_INR n) as Np.
  assert (Q : 0 <= INR n * uu <= 12 / 100000000).
  { split; [apply Rmult_le_pos; lra|]. apply Rle_trans with (1000000000 * uu); [apply Rmult_le_compat_r; lra|rewrite UV; lra]. }
  pose proof (lo_ge n) as LG. pose proof (hi_le n ltac:(lra)) as HL.
  assert (lo n * t >= (1 - 12 / 100000000) * t) by (apply Rle_ge, Rmult_le_compat_r; lra).
  assert (hi n * t <= (1 + 24 / 100000000) * t) by (apply Rmult_le_compat_r; lra). apply Rabs_le. lra.
Qed.
Lemma sub_positive i : (i < m)%nat -> exists j, (j < m)%nat /\ 0 < p (nth i idx 0%nat) (nth j idx 0%nat).
Proof.
  intros I. destruct (classic_pos m (fun j => p (nth i idx 0%nat) (nth j idx 0%nat)) (fun j J => proj2 (sub_doubles i j I J))) as [H|H]; [exact H|].
  exfalso. pose proof (Rabs_le_inv _ _ (sub_total i I)) as T. rewrite (rsumn_ext m _ (fun _ => 0) H), rsumn_const in T. lra.
Qed.
Theorem sub_near i j : (i < m)%nat -> (j < m)%nat ->
  let w := p (nth i idx 0%nat) (nth j idx 0%nat) in
  Rabs (f_sub sm idx p i j - w) <= 2 / 100000 * w + tiny /\ (0 < f_sub sm idx p i j <-> 0 < w).
Proof.
  intros I J w. pose proof (share_near sm m (fun j => p (nth i idx 0%nat) (nth j idx 0%nat)) S1 m_le (fun j => sub_doubles i j I) (sub_positive i I) j J) as E.
  pose proof (Rabs_le_inv _ _ (sub_total i I)) as T. destruct (sub_doubles i j I J) as [Dw W0]. fold w in Dw, W0.
  cbv beta in E. fold w in E. unfold f_sub, f_normalize. fold m. fold w. set (z := rnd _) in *. set (t := rsumn m _) in *.
  pose proof uu_val as UV. pose proof uu_pos as UP. pose proof (pos_INR m) as Np. pose proof m_le as MB. pose proof tiny_pos as TP.
  assert (Z0 : w = 0 -> z = 0) by (intros E0; unfold z; rewrite E0; unfold Rdiv; rewrite Rmult_0_l; apply rnd_0).
  clearbody z t.
  assert (Q : 0 <= INR m * uu <= 12 / 100000000).
  { split; [apply Rmult_le_pos; lra|]. apply Rle_trans with (1000000000 * uu); [apply Rmult_le_compat_r; lra|rewrite UV; lra]. }
  assert (V : 0 <= w / t) by (apply Rmult_le_pos; [lra|left; apply Rinv_0_lt_compat; lra]).
  assert (W : w = w / t * t) by (field; lra). set (x := w / t) in *. clearbody x.
  assert (X1 : x * (1 - 11 / 1000000) <= w) by (rewrite W; apply Rmult_le_compat_l; lra).
  assert (X2 : w <= x * (1 + 11 / 1000000)) by (rewrite W; apply Rmult_le_compat_l; lra).
  assert (X3 : x * (4 * (INR m * uu)) <= x * (48 / 100000000)) by (apply Rmult_le_compat_l; lra).
  assert (N : Rabs (z - w) <= 2 / 100000 * w + tiny) by (apply Rabs_le; lra). split; [exact N|].
  apply Rabs_le_inv in N. split.
  - intros Z. destruct (Rle_lt_or_eq_dec 0 w W0) as [G|G]; [exact G|]. rewrite Z0 in Z by (symmetry; exact G). lra.
  - intros G. pose proof (double_pos w Dw G). lra.
Qed.
Theorem sub_accepted sm' : summing sm' -> f_accepts sm' m (f_sub sm idx p).
Proof. intros S'. apply normalized_accepted; [exact S1|exact S'|exact L2|exact m_le|exact sub_doubles|exact sub_positive]. Qed.
End Sub.
(** three states, the last one leading into the closed set of the first two *)
Definition inner : fmat := fun i j => if Nat.eqb j 2 then 0 else 1 / 2.
