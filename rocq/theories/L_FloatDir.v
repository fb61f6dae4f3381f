(** L_FloatDir: Dirichlet processes in doubles. *)
From Coq Require Import Reals Lra Lia List ZArith Bool Permutation.
From Flocq Require Import Core.
From Verif Require Import Fl M_Float S_Float L_Float1 L_Float2 L_Float3 M_FloatNorm S_FloatNorm L_FloatNorm L_FloatRed L_FloatMoran L_FloatUrn M_FloatDir S_FloatDir.
Import ListNotations.
Local Open Scope R_scope.

(** the loop, by index *)
Fixpoint alloc (g : nat -> R) (j : nat) : R :=
  match j with O => 0 | S j => rnd (alloc g j + rnd (rnd (1 - alloc g j) * g j)) end.
Definition weight (g : nat -> R) (j : nat) : R := rnd (rnd (1 - alloc g j) * g j).
Lemma gem_nth g m : forall k j, (j < m)%nat -> nth j (f_gem (alloc g k) (map g (seq k m))) 0 = weight g (k + j).
Proof.
  induction m as [|m IH]; intros k j J; [lia|]. simpl. destruct j as [|j].
  - rewrite Nat.add_0_r. reflexivity.
  - change (rnd (alloc g k + rnd (rnd (1 - alloc g k) * g k))) with (alloc g (S k)). rewrite IH by lia. f_equal. lia.
Qed.
Lemma gem_row n draws i j : (j < n)%nat -> f_gem_rows n draws i j = weight (draws i) j.
Proof. intros J. unfold f_gem_rows, frow. change 0 with (alloc (draws i) 0) at 1. rewrite gem_nth by exact J. reflexivity. Qed.

Section Row.
Variables (n : nat) (g : nat -> R).
Hypothesis G : forall j, (j < n)%nat -> is_double (g j) /\ 0 <= g j <= 1.
Lemma alloc_range j : (j <= n)%nat -> is_double (alloc g j) /\ 0 <= alloc g j <= 1.
Proof.
  induction j as [|j IH]; intros J; [split; [apply is_double_0|simpl; lra]|].
  destruct (IH ltac:(lia)) as [D A]. destruct (G j ltac:(lia)) as [_ B]. cbn [alloc]. split; [apply is_double_rnd|].
  set (a := alloc g j) in *. assert (R0 : 0 <= rnd (1 - a)) by (apply rnd_nonneg; lra).
  assert (W0 : 0 <= rnd (rnd (1 - a) * g j)) by (apply rnd_nonneg, Rmult_le_pos; lra).
  assert (W1 : rnd (rnd (1 - a) * g j) <= rnd (1 - a)).
  { rewrite <- (rnd_id (rnd (1 - a))) at 2 by apply is_double_rnd. apply rnd_le. rewrite <- (Rmult_1_r (rnd (1 - a))) at 2. apply Rmult_le_compat_l; lra. }
  split; [apply rnd_nonneg; lra|]. eapply Rle_trans; [|apply (one_minus a D A)]. apply rnd_le. lra.
Qed.
Lemma weight_range j : (j < n)%nat -> is_double (weight g j) /\ 0 <= weight g j.
Proof.
  intros J. destruct (alloc_range j ltac:(lia)) as [_ A]. destruct (G j J) as [_ B]. split; [apply is_double_rnd|].
  apply rnd_nonneg, Rmult_le_pos; [apply rnd_nonneg; lra|lra].
Qed.
(** the first positive draw gives a positive weight *)
Lemma alloc_zero k : (forall l, (l < k)%nat -> g l = 0) -> alloc g k = 0.
Proof.
  induction k as [|k IH]; intros Z; [reflexivity|]. cbn [alloc]. rewrite IH by (intros; apply Z; lia). rewrite (Z k) by lia.
  rewrite Rmult_0_r, rnd_0, Rplus_0_r, rnd_0. reflexivity.
Qed.
Lemma weight_first k : (k < n)%nat -> (forall l, (l < k)%nat -> g l = 0) -> weight g k = g k.
Proof.
  intros K Z. unfold weight. rewrite alloc_zero by exact Z. rewrite Rminus_0_r, rnd_1, Rmult_1_l. apply rnd_id, G, K.
Qed.
Lemma weight_none j : g j = 0 -> weight g j = 0.
Proof. intros Z. unfold weight. rewrite Z, Rmult_0_r. apply rnd_0. Qed.
Lemma first_positive : (exists j, (j < n)%nat /\ 0 < g j) -> exists k, (k < n)%nat /\ 0 < g k /\ forall l, (l < k)%nat -> g l = 0.
Proof.
  intros (j & J & P).
  assert (Q : forall m, (m <= n)%nat -> (forall l, (l < m)%nat -> g l = 0) \/ exists k, (k < m)%nat /\ 0 < g k /\ forall l, (l < k)%nat -> g l = 0).
  { induction m as [|m IH]; intros M; [left; intros; lia|]. destruct (IH ltac:(lia)) as [Z|(k & K1 & K2 & K3)].
    - destruct (G m ltac:(lia)) as [_ B]. destruct (Req_dec (g m) 0) as [E|E].
      + left. intros l L. destruct (Nat.eq_dec l m) as [e|e]; [rewrite e; exact E|apply Z; lia].
      + right. exists m. split; [lia|]. split; [lra|exact Z].
    - right. exists k. split; [lia|]. split; [exact K2|exact K3]. }
  destruct (Q n (le_n n)) as [Z|K]; [rewrite (Z j J) in P; lra|exact K].
Qed.
Lemma weight_some : (exists j, (j < n)%nat /\ 0 < g j) -> exists j, (j < n)%nat /\ 0 < weight g j.
Proof.
  intros H. destruct (first_positive H) as (k & K & P & Z). exists k. split; [exact K|]. rewrite weight_first by assumption. exact P.
Qed.

(** accuracy *)
Lemma left_range j : (j <= n)%nat -> 0 <= leftR g j <= 1.
Proof.
  induction j as [|j IH]; intros J; [simpl; lra|]. specialize (IH ltac:(lia)). destruct (G j ltac:(lia)) as [_ B]. cbn [leftR].
  split; [apply Rmult_le_pos; lra|]. apply Rle_trans with (1 * 1); [apply Rmult_le_compat; lra|lra].
Qed.
Lemma one_step a l x e : 0 <= a <= 1 -> 0 <= x <= 1 -> 0 <= e -> Rabs (a - (1 - l)) <= e ->
  Rabs (rnd (rnd (1 - a) * x) - l * x) <= e + 4 * e16 /\
  Rabs (rnd (a + rnd (rnd (1 - a) * x)) - (1 - l * (1 - x))) <= e + 7 * e16.
Proof.
  intros A X E0 E. assert (P : 0 < e16 <= 12 / 100000000000000000) by (unfold e16; lra).
  destruct (compl_near a A) as [R1 R2]. set (r := rnd (1 - a)) in *. clearbody r. apply Rabs_le_inv in R2.
  assert (Q : 0 <= r * x <= 1) by (split; [apply Rmult_le_pos; lra|apply Rle_trans with (1 * 1); [apply Rmult_le_compat; lra|lra]]).
  pose proof (rb (r * x) 1 ltac:(rewrite Rabs_pos_eq; lra)) as W. pose proof (rnd_nonneg _ (proj1 Q)) as W0. pose proof (rnd_le_1 _ (proj2 Q)) as W1.
  set (w := rnd (r * x)) in *. clearbody w.
  pose proof (rb (a + w) 2 ltac:(rewrite Rabs_pos_eq; lra)) as V. apply Rabs_le_inv in W. apply Rabs_le_inv in V.
  assert (C1 : Rabs ((r - (1 - a)) * x) <= 2 * e16 * 1).
  { rewrite Rabs_mult, (Rabs_pos_eq x) by lra. apply Rmult_le_compat; [apply Rabs_pos|lra|apply Rabs_le; lra|lra]. }
  assert (C2 : Rabs ((a - (1 - l)) * x) <= e * 1).
  { rewrite Rabs_mult, (Rabs_pos_eq x) by lra. apply Rmult_le_compat; [apply Rabs_pos|lra|exact E|lra]. }
  assert (C3 : Rabs ((a - (1 - l)) * (1 - x)) <= e * 1).
  { rewrite Rabs_mult, (Rabs_pos_eq (1 - x)) by lra. apply Rmult_le_compat; [apply Rabs_pos|lra|exact E|lra]. }
  apply Rabs_le_inv in C1. apply Rabs_le_inv in C2. apply Rabs_le_inv in C3. split; apply Rabs_le; lra.
Qed.
Lemma alloc_near j : (j <= n)%nat -> Rabs (alloc g j - (1 - leftR g j)) <= 7 * INR j * e16.
Proof.
  assert (P : 0 < e16) by (unfold e16; lra).
  induction j as [|j IH]; intros J; [simpl; replace (0 - (1 - 1)) with 0 by ring; rewrite Rabs_R0; lra|].
  destruct (alloc_range j ltac:(lia)) as [_ A]. destruct (G j ltac:(lia)) as [_ B]. pose proof (pos_INR j) as Q.
  assert (E0 : 0 <= 7 * INR j * e16) by (apply Rmult_le_pos; lra).
  pose proof (proj2 (one_step (alloc g j) (leftR g j) (g j) _ A B E0 (IH ltac:(lia)))) as H.
  cbn [alloc leftR]. rewrite S_INR. lra.
Qed.
Lemma weight_near j : (j < n)%nat -> Rabs (weight g j - pieceR g j) <= 7 * INR n * e16.
Proof.
  intros J. assert (P : 0 < e16) by (unfold e16; lra).
  destruct (alloc_range j ltac:(lia)) as [_ A]. destruct (G j J) as [_ B]. pose proof (pos_INR j) as Q.
  assert (E0 : 0 <= 7 * INR j * e16) by (apply Rmult_le_pos; lra).
  pose proof (proj1 (one_step (alloc g j) (leftR g j) (g j) _ A B E0 (alloc_near j ltac:(lia)))) as H.
  assert (K : INR j + 1 <= INR n) by (rewrite <- S_INR; apply le_INR; lia).
  assert (7 * (INR j + 1) * e16 <= 7 * INR n * e16) by (apply Rmult_le_compat_r; lra). unfold weight, pieceR. lra.
Qed.
Lemma total_near : Rabs (rsumn n (weight g) - brokenR n g) <= INR n * (7 * INR n * e16).
Proof.
  assert (A : rsumn n (weight g) <= rsumn n (fun j => pieceR g j + 7 * INR n * e16)).
  { apply rsumn_le. intros j J. pose proof (Rabs_le_inv _ _ (weight_near j J)). lra. }
  assert (B : rsumn n (pieceR g) <= rsumn n (fun j => weight g j + 7 * INR n * e16)).
  { apply rsumn_le. intros j J. pose proof (Rabs_le_inv _ _ (weight_near j J)). lra. }
  rewrite rsumn_add, rsumn_const in A, B. unfold brokenR. apply Rabs_le. lra.
Qed.
Lemma broken_left m : rsumn m (pieceR g) = 1 - leftR g m.
Proof.
  induction m as [|m IH]; [unfold rsumn; simpl; ring|]. unfold rsumn in *. rewrite seq_S, map_app, rsum_app, IH. simpl. unfold pieceR. ring.
Qed.
Lemma broken_le : brokenR n g <= 1.
Proof. unfold brokenR. rewrite broken_left. pose proof (left_range n (le_n n)). lra. Qed.
Theorem share_of_piece sm j : summing sm -> (2 <= n)%nat -> INR n <= 1000000000 -> (j < n)%nat -> (exists j, (j < n)%nat /\ 0 < g j) ->
  Rabs (rnd (weight g j / sm (frow n (weight g))) - pieceR g j / brokenR n g) <= 3 / 1000000000000000 * (INR n * INR n) / brokenR n g.
Proof.
  intros S N B J H.
  assert (T0 : 0 < brokenR n g).
  { destruct (first_positive H) as (k & K & P & Z). unfold brokenR.
    apply Rlt_le_trans with (pieceR g k).
    - assert (L : leftR g k = 1); [|unfold pieceR; rewrite L; lra].
      clear - Z. induction k as [|k IH]; [reflexivity|]. cbn [leftR]. rewrite IH by (intros; apply Z; lia). rewrite (Z k) by lia. ring.
    - replace (pieceR g k) with (rsumn n (fun l => if Nat.eqb l k then pieceR g k else 0)) by (apply one_sum; exact K).
      apply rsumn_le. intros l L. destruct (Nat.eqb_spec l k) as [e|e]; [rewrite e; lra|].
      destruct (G l L) as [_ X]. apply Rmult_le_pos; [apply left_range; lia|lra]. }
  pose proof (share_near sm n (weight g) S B weight_range (weight_some H) j J) as E.
  pose proof (weight_near j J) as W. pose proof total_near as T. pose proof broken_le as T1.
  assert (LE : weight g j <= rsumn n (weight g)).
  { replace (weight g j) with (rsumn n (fun l => if Nat.eqb l j then weight g j else 0)) by (apply one_sum; exact J).
    apply rsumn_le. intros l L. destruct (Nat.eqb_spec l j) as [e|e]; [rewrite e; lra|apply (weight_range l L)]. }
  assert (W0 : 0 < rsumn n (weight g)).
  { destruct (weight_some H) as (k & K & P). apply Rlt_le_trans with (weight g k); [exact P|].
    replace (weight g k) with (rsumn n (fun l => if Nat.eqb l k then weight g k else 0)) by (apply one_sum; exact K).
    apply rsumn_le. intros l L. destruct (Nat.eqb_spec l k) as [e|e]; [rewrite e; lra|apply (weight_range l L)]. }
  pose proof (weight_range j J) as [_ Wj].
  set (z := rnd _) in *. set (w := weight g j) in *. set (s := rsumn n (weight g)) in *. set (x := pieceR g j) in *. set (t := brokenR n g) in *. clearbody z w s x t.
  assert (NN : 2 <= INR n) by (apply (le_INR 2); lia). assert (P : 0 < e16 <= 12 / 100000000000000000) by (unfold e16; lra).
  set (m := INR n) in *. clearbody m.
  assert (Q : 0 <= w / s <= 1).
  { split; [apply Rmult_le_pos; [lra|left; apply Rinv_0_lt_compat; lra]|]. apply (Rmult_le_reg_r s); [lra|]. unfold Rdiv. rewrite Rmult_assoc, Rinv_l by lra. lra. }
  assert (U : uu <= e16) by (rewrite uu_val; unfold e16; lra). pose proof uu_pos as UP. pose proof tiny_small as TS.
  assert (F : Rabs (z - w / s) <= 5 * m * e16).
  { assert (K : m * uu <= m * e16) by (apply Rmult_le_compat_l; lra). assert (K0 : 0 <= m * uu) by (apply Rmult_le_pos; lra).
    assert (w / s * (4 * (m * uu)) <= 1 * (4 * (m * e16))) by (apply Rmult_le_compat; lra).
    assert (2 * e16 <= m * e16) by (apply Rmult_le_compat_r; lra). apply Rabs_le. lra. }
  assert (D : Rabs (w / s - x / t) * t <= 7 * m * e16 + m * (7 * m * e16)).
  { rewrite <- (Rabs_pos_eq t) at 2 by lra. rewrite <- Rabs_mult. replace ((w / s - x / t) * t) with ((w - x) + - (w / s * (s - t))) by (field; lra).
    eapply Rle_trans; [apply Rabs_triang|]. rewrite Rabs_Ropp, (Rabs_mult (w / s)), (Rabs_pos_eq (w / s)) by lra.
    assert (w / s * Rabs (s - t) <= 1 * (m * (7 * m * e16))) by (apply Rmult_le_compat; [lra|apply Rabs_pos|lra|exact T]). lra. }
  apply (Rmult_le_reg_r t); [exact T0|]. replace (3 / 1000000000000000 * (m * m) / t * t) with (3 / 1000000000000000 * (m * m)) by (field; lra).
  apply Rle_trans with ((Rabs (z - w / s) + Rabs (w / s - x / t)) * t).
  { apply Rmult_le_compat_r; [lra|]. replace (z - x / t) with ((z - w / s) + (w / s - x / t)) by ring. apply Rabs_triang. }
  rewrite Rmult_plus_distr_r.
  assert (H1 : Rabs (z - w / s) * t <= 5 * m * e16 * 1) by (apply Rmult_le_compat; [apply Rabs_pos|lra|exact F|lra]).
  assert (M2 : 2 * m <= m * m) by (apply Rmult_le_compat_r; lra).
  assert (H2 : 13 * (m * m) * e16 <= 3 / 1000000000000000 * (m * m)).
  { replace (13 * (m * m) * e16) with (13 * e16 * (m * m)) by ring. apply Rmult_le_compat_r; [nra|lra]. }
  assert (H3 : 6 * (2 * m) * e16 <= 6 * (m * m) * e16) by (apply Rmult_le_compat_r; lra). lra.
Qed.
End Row.

(** the matrix *)
Definition reverse_sum (sm : list R -> R) : list R -> R := fun l => sm (rev l).
Lemma reverse_summing sm : summing sm -> summing (reverse_sum sm).
Proof.
  intros S l. unfold reverse_sum. specialize (S (rev l)).
  assert (P : forall a b v, fsum a v -> Permutation b a -> fsum b v).
  { intros a b v F. revert b. induction F as [|x|l0 l1 l2 v1 v2 Q F1 I1 F2 I2]; intros b E.
    - apply Permutation_sym, Permutation_nil in E. rewrite E. constructor.
    - apply Permutation_sym, Permutation_length_1_inv in E. rewrite E. constructor.
    - apply (fs_add b l1 l2); [eapply Permutation_trans; [exact E|exact Q]|exact F1|exact F2]. }
  apply (P (rev l)); [exact S|]. apply Permutation_rev.
Qed.
Lemma rev_frow n f : rev (frow n (fun j => f (n - 1 - j)%nat)) = frow n f.
Proof.
  unfold frow. apply (nth_ext _ _ 0 0); [rewrite rev_length, !map_length; reflexivity|].
  intros k K. rewrite rev_length, map_length, seq_length in K. rewrite rev_nth by (rewrite map_length, seq_length; exact K).
  rewrite map_length, seq_length.
  rewrite (nth_indep _ 0 ((fun j => f (n - 1 - j)%nat) 0%nat)) by (rewrite map_length, seq_length; lia). rewrite (map_nth (fun j => f (n - 1 - j)%nat)).
  rewrite (nth_indep (map f (seq 0 n)) 0 (f 0%nat)) by (rewrite map_length, seq_length; lia). rewrite map_nth.
  rewrite !seq_nth by lia. f_equal. lia.
Qed.
Lemma flip_normalize sm n w i j : f_flip n (f_normalize sm n w) i j = f_normalize (reverse_sum sm) n (f_flip n w) i j.
Proof. unfold f_flip, f_normalize, reverse_sum. rewrite (rev_frow n (w i)). reflexivity. Qed.
Lemma accepts_ext sm n p q : (forall i j, p i j = q i j) -> f_accepts sm n q -> f_accepts sm n p.
Proof.
  intros E (N & D & C). split; [exact N|]. split; [intros i j I J; rewrite E; apply D; assumption|].
  intros i I. replace (frow n (p i)) with (frow n (q i)); [apply C, I|]. unfold frow. apply map_ext. intros j. symmetry. apply E.
Qed.
Lemma classic_pos n f : (forall j, (j < n)%nat -> 0 <= f j) -> (exists j, (j < n)%nat /\ 0 < f j) \/ (forall j, (j < n)%nat -> f j = 0).
Proof.
  induction n as [|n IH]; intros P; [right; intros; lia|].
  destruct (IH (fun j J => P j (Nat.lt_lt_succ_r _ _ J))) as [(j & J & H)|H].
  - left. exists j. split; [lia|exact H].
  - destruct (Req_dec (f n) 0) as [E|E].
    + right. intros j J. destruct (Nat.eq_dec j n) as [e|e]; [rewrite e; exact E|apply H; lia].
    + left. exists n. split; [lia|]. specialize (P n (Nat.lt_succ_diag_r n)). lra.
Qed.
Lemma accepts_positive sm n p i : summing sm -> INR n <= 1000000000 -> f_accepts sm n p -> (i < n)%nat -> exists j, (j < n)%nat /\ 0 < p i j.
Proof.
  intros S B (N & D & C) I. destruct (classic_pos n (p i) (fun j J => proj1 (proj2 (D i j I J)))) as [H|H]; [exact H|].
  - exfalso. destruct (row_bounds sm n (p i) S) as [[F _] [_ U]]; [intros j J; destruct (D i j I J) as (X & Y); split; [exact X|lra]|].
    pose proof (Rabs_le_inv _ _ (close_out _ F (C i I))) as O.
    assert (T : rsumn n (p i) = 0).
    { rewrite (rsumn_ext n _ (fun _ => 0)) by (intros j J; apply H, J). rewrite rsumn_const. ring. }
    rewrite T in U. lra.
Qed.

Lemma plain_accepted sm sm' n draws : summing sm -> summing sm' -> (2 <= n)%nat -> INR n <= 1000000000 -> drawn n draws -> forall shift : bool,
  f_accepts sm' n (if shift then f_flip n (f_normalize sm n (f_gem_rows n draws)) else f_normalize sm n (f_gem_rows n draws)).
Proof.
  intros S S' N B [D P] shift. destruct shift.
  - apply (accepts_ext sm' n _ _ (flip_normalize sm n (f_gem_rows n draws))). apply normalized_accepted; [apply reverse_summing, S|exact S'|exact N|exact B| |].
    + intros i j I J. unfold f_flip. rewrite gem_row by lia. apply (weight_range n (draws i) (fun k => D i k I)). lia.
    + intros i I. destruct (weight_some n (draws i) (fun k => D i k I) (P i I)) as (j & J & H). exists (n - 1 - j)%nat. split; [lia|].
      unfold f_flip. replace (n - 1 - (n - 1 - j))%nat with j by lia. rewrite gem_row by exact J. exact H.
  - apply normalized_accepted; [exact S|exact S'|exact N|exact B| |].
    + intros i j I J. rewrite gem_row by exact J. apply (weight_range n (draws i) (fun k => D i k I)). exact J.
    + intros i I. destruct (weight_some n (draws i) (fun k => D i k I) (P i I)) as (j & J & H). exists j. split; [exact J|].
      rewrite gem_row by exact J. exact H.
Qed.
Theorem dirichlet_accepted sm sm' n draws shift diag : summing sm -> summing sm' -> (2 <= n)%nat -> INR n <= 1000000000 -> drawn n draws ->
  (forall d, diag = Some d -> forall i, (i < n)%nat -> is_double (d i) /\ 0 <= d i <= 1) ->
  f_accepts sm' n (f_dirichlet sm n draws shift diag).
Proof.
  intros S S' N B H E. pose proof (plain_accepted sm sm' n draws S S' N B H shift) as A. unfold f_dirichlet.
  set (q := if shift then _ else _) in *. clearbody q. destruct diag as [d|]; [|exact A].
  specialize (E d eq_refl). destruct A as (_ & D & C).
  apply normalized_accepted; [exact S|exact S'|exact N|exact B| |].
  - intros i j I J. destruct (D i j I J) as [X Y]. unfold f_add_diag. destruct (Nat.eqb i j); [|split; [exact X|lra]].
    split; [apply is_double_rnd|]. destruct (E i I). apply rnd_nonneg. lra.
  - intros i I. destruct (accepts_positive sm' n q i S' B (conj N (conj D C)) I) as (j & J & P). exists j. split; [exact J|].
    unfold f_add_diag. destruct (Nat.eqb i j); [|exact P]. destruct (E i I) as [_ F]. destruct (D i j I J) as [X _].
    apply Rlt_le_trans with (q i j); [exact P|]. rewrite <- (rnd_id (q i j) X) at 1. apply rnd_le. lra.
Qed.
Theorem dirichlet_only_drawn sm n draws (shift : bool) i j : (i < n)%nat -> (j < n)%nat ->
  draws i (if shift then (n - 1 - j)%nat else j) = 0 -> f_dirichlet sm n draws shift None i j = 0.
Proof.
  intros I J Z. unfold f_dirichlet. destruct shift; unfold f_flip, f_normalize; rewrite gem_row by lia; rewrite weight_none by exact Z;
    unfold Rdiv; rewrite Rmult_0_l; apply rnd_0.
Qed.
Theorem dirichlet_accurate sm n draws (shift : bool) i j : summing sm -> (2 <= n)%nat -> INR n <= 1000000000 -> drawn n draws -> (i < n)%nat -> (j < n)%nat ->
  let g := draws i in let k := if shift then (n - 1 - j)%nat else j in
  Rabs (f_dirichlet sm n draws shift None i j - pieceR g k / brokenR n g) <= 3 / 1000000000000000 * (INR n * INR n) / brokenR n g.
Proof.
  intros S N B [D P] I J g k.
  assert (K : (k < n)%nat) by (unfold k; destruct shift; lia).
  assert (E : f_dirichlet sm n draws shift None i j = rnd (weight g k / sm (frow n (weight g)))).
  { unfold f_dirichlet. replace (frow n (weight g)) with (frow n (f_gem_rows n draws i)).
    - unfold k, g. destruct shift; unfold f_flip, f_normalize; rewrite gem_row by lia; reflexivity.
    - unfold frow. apply map_ext_in. intros l L. apply in_seq in L. apply gem_row. lia. }
  rewrite E. apply (share_of_piece n g (fun l => D i l I) sm k S N B K (P i I)).
Qed.

(** the bias of the diagonal *)
Lemma share_abs sm n f j : summing sm -> (2 <= n)%nat -> INR n <= 1000000000 -> (forall j, (j < n)%nat -> is_double (f j) /\ 0 <= f j) ->
  (exists j, (j < n)%nat /\ 0 < f j) -> (j < n)%nat ->
  0 < rsumn n f /\ 0 <= f j / rsumn n f <= 1 /\ Rabs (rnd (f j / sm (frow n f)) - f j / rsumn n f) <= 4 * INR n * e16 * (f j / rsumn n f) + e16.
Proof.
  intros S N B D H J. pose proof (share_near sm n f S B D H j J) as E.
  assert (GE : forall k, (k < n)%nat -> f k <= rsumn n f).
  { intros k K. replace (f k) with (rsumn n (fun l => if Nat.eqb l k then f k else 0)) by (apply one_sum; exact K).
    apply rsumn_le. intros l L. destruct (Nat.eqb_spec l k) as [e|e]; [rewrite e; lra|apply (D l L)]. }
  assert (T : 0 < rsumn n f) by (destruct H as (k & K & P); specialize (GE k K); lra).
  specialize (GE j J). destruct (D j J) as [_ F0]. set (z := rnd _) in *. set (s := rsumn n f) in *. set (w := f j) in *. clearbody z s w.
  assert (Q : 0 <= w / s <= 1).
  { split; [apply Rmult_le_pos; [lra|left; apply Rinv_0_lt_compat; lra]|]. apply (Rmult_le_reg_r s); [lra|]. unfold Rdiv. rewrite Rmult_assoc, Rinv_l by lra. lra. }
  split; [exact T|]. split; [exact Q|].
  assert (U : uu <= e16) by (rewrite uu_val; unfold e16; lra). pose proof uu_pos as UP. pose proof tiny_small as TS. pose proof (pos_INR n) as NP.
  assert (K : 4 * (INR n * uu) <= 4 * INR n * e16) by (assert (INR n * uu <= INR n * e16) by (apply Rmult_le_compat_l; lra); lra).
  assert (w / s * (4 * (INR n * uu)) <= w / s * (4 * INR n * e16)) by (apply Rmult_le_compat_l; lra). apply Rabs_le. lra.
Qed.
Lemma shares_total sm n f : summing sm -> (2 <= n)%nat -> INR n <= 1000000000 -> (forall j, (j < n)%nat -> is_double (f j) /\ 0 <= f j) ->
  (exists j, (j < n)%nat /\ 0 < f j) -> Rabs (rsumn n (fun j => rnd (f j / sm (frow n f))) - 1) <= 5 * INR n * e16.
Proof.
  intros S N B D H. destruct (share_abs sm n f 0 S N B D H ltac:(lia)) as (T & _).
  assert (Q : forall j, (j < n)%nat -> Rabs (rnd (f j / sm (frow n f)) - f j / rsumn n f) <= 4 * INR n * e16 * (f j / rsumn n f) + e16) by (intros j J; apply (share_abs sm n f j); assumption).
  assert (O : rsumn n (fun j => f j / rsumn n f) = 1).
  { rewrite (rsumn_ext n _ (fun j => / rsumn n f * f j)) by (intros; unfold Rdiv; ring). rewrite rsumn_scal. apply Rinv_l. lra. }
  set (s := rsumn n f) in *. set (h := fun j => f j / s) in *. set (z := fun j => rnd (f j / sm (frow n f))) in *.
  assert (A : rsumn n z <= rsumn n (fun j => (1 + 4 * INR n * e16) * h j + e16)).
  { apply rsumn_le. intros j J. pose proof (Rabs_le_inv _ _ (Q j J)). unfold z, h. lra. }
  assert (A' : rsumn n (fun j => (1 - 4 * INR n * e16) * h j) <= rsumn n (fun j => z j + e16)).
  { apply rsumn_le. intros j J. pose proof (Rabs_le_inv _ _ (Q j J)). unfold z, h. lra. }
  rewrite rsumn_add, rsumn_const in A, A'. rewrite rsumn_scal, O in A, A'. apply Rabs_le. lra.
Qed.
Lemma rsumn_flip n f : rsumn n (fun j => f (n - 1 - j)%nat) = rsumn n f.
Proof.
  unfold rsumn. change (map f (seq 0 n)) with (frow n f). rewrite <- (rev_frow n f). apply rsum_perm, Permutation_rev.
Qed.
Lemma plain_total sm n draws i (shift : bool) : summing sm -> (2 <= n)%nat -> INR n <= 1000000000 -> drawn n draws -> (i < n)%nat ->
  Rabs (rsumn n (f_dirichlet sm n draws shift None i) - 1) <= 5 * INR n * e16.
Proof.
  intros S N B [D P] I.
  assert (X : Rabs (rsumn n (f_normalize sm n (f_gem_rows n draws) i) - 1) <= 5 * INR n * e16).
  { apply (shares_total sm n (f_gem_rows n draws i) S N B).
    - intros j J. rewrite gem_row by exact J. apply (weight_range n (draws i) (fun k => D i k I)). exact J.
    - destruct (weight_some n (draws i) (fun k => D i k I) (P i I)) as (j & J & H). exists j. split; [exact J|]. rewrite gem_row by exact J. exact H. }
  unfold f_dirichlet. destruct shift; [|exact X]. unfold f_flip. rewrite (rsumn_flip n (f_normalize sm n (f_gem_rows n draws) i)). exact X.
Qed.
Theorem dirichlet_biased sm n draws (shift : bool) d i j : summing sm -> (2 <= n)%nat -> INR n <= 1000000000 -> drawn n draws ->
  (forall i, (i < n)%nat -> is_double (d i) /\ 0 <= d i <= 1) -> (i < n)%nat -> (j < n)%nat ->
  let q := f_dirichlet sm n draws shift None in
  Rabs (f_dirichlet sm n draws shift (Some d) i j - (q i j + (if Nat.eqb i j then d i else 0)) / (1 + d i)) <= 2 / 1000000000000000 * INR n.
Proof.
  intros S N B H E I J q. pose proof (dirichlet_accepted sm sm n draws shift None S S N B H ltac:(discriminate)) as A. fold q in A.
  pose proof (plain_total sm n draws i shift S N B H I) as T. fold q in T.
  destruct A as (_ & D & C). destruct (E i I) as [Di D1].
  assert (R : forall k, (k < n)%nat -> is_double (f_add_diag d q i k) /\ 0 <= f_add_diag d q i k /\
    Rabs (f_add_diag d q i k - (q i k + (if Nat.eqb i k then d i else 0))) <= 3 * e16).
  { intros k K. destruct (D i k I K) as [X Y]. unfold f_add_diag. assert (E0 : 0 < e16) by (unfold e16; lra). destruct (Nat.eqb i k).
    - split; [apply is_double_rnd|]. split; [apply rnd_nonneg; lra|].
      pose proof (rb (q i k + d i) 2 ltac:(rewrite Rabs_pos_eq; lra)). lra.
    - split; [exact X|]. split; [lra|]. replace (q i k - (q i k + 0)) with 0 by ring. rewrite Rabs_R0. lra. }
  assert (P : exists k, (k < n)%nat /\ 0 < f_add_diag d q i k).
  { destruct (accepts_positive sm n q i S B (conj N (conj D C)) I) as (k & K & P). exists k. split; [exact K|].
    unfold f_add_diag. destruct (Nat.eqb i k); [|exact P]. destruct (D i k I K) as [X _].
    apply Rlt_le_trans with (q i k); [exact P|]. rewrite <- (rnd_id (q i k) X) at 1. apply rnd_le. lra. }
  assert (TT : Rabs (rsumn n (f_add_diag d q i) - (1 + d i)) <= 5 * INR n * e16 + 3 * e16).
  { assert (Y : rsumn n (f_add_diag d q i) = rsumn n (q i) + (f_add_diag d q i i - q i i)).
    { rewrite <- (one_sum n i (f_add_diag d q i i - q i i) I). rewrite <- rsumn_add. apply rsumn_ext. intros k K.
      destruct (Nat.eqb_spec k i) as [e|e]; [rewrite e; ring|]. unfold f_add_diag. rewrite (proj2 (Nat.eqb_neq i k)) by lia. ring. }
    rewrite Y. destruct (R i I) as (_ & _ & Z). rewrite Nat.eqb_refl in Z. apply Rabs_le_inv in Z. apply Rabs_le_inv in T. apply Rabs_le. lra. }
  destruct (share_abs sm n (f_add_diag d q i) j S N B (fun k K => conj (proj1 (R k K)) (proj1 (proj2 (R k K)))) P J) as (S0 & Q & F).
  destruct (R j J) as (_ & _ & Z).
  change (f_dirichlet sm n draws shift (Some d) i j) with (rnd (f_add_diag d q i j / sm (frow n (f_add_diag d q i)))).
  set (z := rnd _) in *. set (r := f_add_diag d q i j) in *. set (s := rsumn n (f_add_diag d q i)) in *. set (x := q i j + _) in *. set (t := 1 + d i) in *.
  assert (T1 : 1 <= t) by (unfold t; lra). clearbody z r s x t.
  assert (NN : 2 <= INR n) by (apply (le_INR 2); lia). set (m := INR n) in *. clearbody m. assert (E0 : 0 < e16 <= 12 / 100000000000000000) by (unfold e16; lra).
  assert (M : 2 * e16 <= m * e16) by (apply Rmult_le_compat_r; lra).
  assert (F' : Rabs (z - r / s) <= 5 * m * e16).
  { eapply Rle_trans; [exact F|]. assert (4 * m * e16 * (r / s) <= 4 * m * e16 * 1) by (apply Rmult_le_compat_l; [nra|lra]). lra. }
  assert (G : Rabs (r / s - x / t) <= 6 * e16 + 5 * m * e16).
  { replace (r / s - x / t) with (((r - x) + - (r / s * (s - t))) * / t) by (field; lra). rewrite Rabs_mult, (Rabs_pos_eq (/ t)) by (left; apply Rinv_0_lt_compat; lra).
    assert (I1 : / t <= 1) by (rewrite <- Rinv_1; apply Rinv_le_contravar; lra). assert (I0 : 0 < / t) by (apply Rinv_0_lt_compat; lra).
    assert (X : Rabs ((r - x) + - (r / s * (s - t))) <= 6 * e16 + 5 * m * e16).
    { eapply Rle_trans; [apply Rabs_triang|]. rewrite Rabs_Ropp, (Rabs_mult (r / s)), (Rabs_pos_eq (r / s)) by lra.
      assert (r / s * Rabs (s - t) <= 1 * (5 * m * e16 + 3 * e16)) by (apply Rmult_le_compat; [lra|apply Rabs_pos|lra|exact TT]). lra. }
    rewrite <- (Rmult_1_r (6 * e16 + 5 * m * e16)). apply Rmult_le_compat; [apply Rabs_pos|lra|exact X|exact I1]. }
  apply Rabs_le_inv in F'. apply Rabs_le_inv in G.
  assert (m * e16 <= m * (12 / 100000000000000000)) by (apply Rmult_le_compat_l; lra). apply Rabs_le. lra.
Qed.
Theorem dirichlet_undrawn sm n draws i : (i < n)%nat -> (forall j, (j < n)%nat -> draws i j = 0) -> summing sm -> sm (frow n (f_gem_rows n draws i)) = 0.
Proof.
  intros I Z S. destruct (row_bounds sm n (f_gem_rows n draws i) S) as [[_ F] [_ U]].
  { intros j J. rewrite gem_row by exact J. rewrite weight_none by (apply Z, J). split; [apply is_double_0|lra]. }
  rewrite (rsumn_ext n _ (fun _ => 0)) in U by (intros j J; rewrite gem_row by exact J; apply weight_none, Z, J). rewrite rsumn_const in U. lra.
Qed.
