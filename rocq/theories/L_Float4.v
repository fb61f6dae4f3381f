(** L_Float4: lumping in doubles. *)
From Coq Require Import Reals Lra Lia List ZArith Permutation.
From Flocq Require Import Core.
From Verif Require Import Fl M_Float S_Float L_Float1 L_Float2 L_Float3.
Import ListNotations.
Local Open Scope R_scope.

(** ** one or two non-zero products: only one rounding, whatever the order *)
Definition nzb (x : R) : bool := if Req_EM_T x 0 then false else true.
Definition nz (l : list (R * R)) : list R := filter nzb (prods l).

Lemma filter_perm (A : Type) (f : A -> bool) l m : Permutation l m -> Permutation (filter f l) (filter f m).
Proof.
  induction 1 as [|x l m H IH|x y l|l m k H1 IH1 H2 IH2]; simpl; auto.
  - destruct (f x); auto.
  - destruct (f x), (f y); auto. apply perm_swap.
  - eapply Permutation_trans; eauto.
Qed.
Lemma nz_perm l m : Permutation l m -> Permutation (nz l) (nz m).
Proof. intros. now apply filter_perm, prods_perm. Qed.

Lemma fdot_two l v : fdot l v -> (forall x, In x (prods l) -> is_double x) -> (length (nz l) <= 2)%nat -> v = rnd (rsum (nz l)).
Proof.
  induction 1 as [|a b|l l1 l2 v1 v2 P H1 IH1 H2 IH2|l a b l' v P H IH]; intros D L.
  - unfold nz; simpl. now rewrite rnd_0.
  - unfold nz, nzb; cbn [prods map fst snd filter]. destruct (Req_EM_T (a * b) 0) as [->|]; cbn [rsum]; [reflexivity|now rewrite Rplus_0_r].
  - pose proof (nz_perm _ _ P) as Q. pose proof (prods_perm _ _ P) as Q'.
    unfold nz, prods in Q. rewrite map_app, filter_app in Q. fold (prods l1) (prods l2) in Q. fold (nz l1) (nz l2) in Q.
    unfold prods in Q'. rewrite map_app in Q'. fold (prods l) (prods l1) (prods l2) in Q'.
    fold (prods l) in Q. fold (nz l) in Q.
    assert (D1 : forall x, In x (prods l1) -> is_double x) by (intros; apply D, (Permutation_in _ (Permutation_sym Q')), in_app_iff; auto).
    assert (D2 : forall x, In x (prods l2) -> is_double x) by (intros; apply D, (Permutation_in _ (Permutation_sym Q')), in_app_iff; auto).
    rewrite (rsum_perm _ _ Q), rsum_app. rewrite (Permutation_length Q), app_length in L.
    rewrite IH1, IH2 by (auto; lia).
    assert (E1 : (length (nz l1) <= 1)%nat -> rnd (rsum (nz l1)) = rsum (nz l1)).
    { intros K. apply rnd_id. destruct (nz l1) as [|x [|]] eqn:E; simpl in K; try lia; simpl; [apply is_double_0|].
      rewrite Rplus_0_r. apply D1. assert (I : In x (nz l1)) by (rewrite E; now left). now apply filter_In in I. }
    assert (E2 : (length (nz l2) <= 1)%nat -> rnd (rsum (nz l2)) = rsum (nz l2)).
    { intros K. apply rnd_id. destruct (nz l2) as [|x [|]] eqn:E; simpl in K; try lia; simpl; [apply is_double_0|].
      rewrite Rplus_0_r. apply D2. assert (I : In x (nz l2)) by (rewrite E; now left). now apply filter_In in I. }
    destruct (nz l1) as [|x1 m1] eqn:N1.
    { simpl rsum. rewrite rnd_0, !Rplus_0_l. apply rnd_id, is_double_rnd. }
    destruct (nz l2) as [|x2 m2] eqn:N2.
    { simpl (rsum []). rewrite rnd_0, !Rplus_0_r. apply rnd_id, is_double_rnd. }
    cbn [length] in L. rewrite E1, E2 by (cbn [length]; lia). reflexivity.
  - pose proof (nz_perm _ _ P) as Q. pose proof (prods_perm _ _ P) as Q'.
    cbn [prods map fst snd] in Q'. fold (prods l') (prods l) in Q'.
    assert (D1 : forall x, In x (prods l') -> is_double x) by (intros; apply D, (Permutation_in _ (Permutation_sym Q')); now right).
    rewrite (rsum_perm _ _ Q). rewrite (Permutation_length Q) in L. clear Q.
    unfold nz in L |- *; cbn [prods map fst snd filter] in L |- *. fold (prods l') in L |- *. fold (nz l') in L |- *.
    unfold nzb in L |- *. destruct (Req_EM_T (a * b) 0) as [Z|Z].
    + fold nzb in L |- *. fold (nz l') in L |- *. rewrite IH by auto. rewrite Z, Rplus_0_l. apply rnd_id, is_double_rnd.
    + fold nzb in L |- *. fold (nz l') in L |- *. cbn [length rsum] in L |- *. rewrite IH by (auto; lia). f_equal. f_equal.
      apply rnd_id. destruct (nz l') as [|x [|]] eqn:E; cbn [length] in L; try lia; simpl; [apply is_double_0|].
      rewrite Rplus_0_r. apply D1. assert (I : In x (nz l')) by (rewrite E; now left). now apply filter_In in I.
Qed.

(** ** a successful lump means nearly lumpable *)
Lemma ind_nonneg n blk : nnm n (f_ind blk).
Proof. intros i j _ _. unfold f_ind. destruct (Nat.eqb _ _); lra. Qed.
Lemma rk_nonneg n blk : nnm n (f_rk n blk).
Proof.
  intros i j _ _. unfold f_rk. destruct (Nat.eqb _ _); [|lra]. apply rnd_nonneg.
  destruct (blk_size n blk (blk i)) as [|s]; [simpl; rewrite Rinv_0; lra|]. left. apply Rinv_0_lt_compat, lt_0_INR; lia.
Qed.
Lemma into_ind n p blk i b : rsumn n (fun l => p i l * f_ind blk l b) = into n p blk i b.
Proof. apply rsumn_ext. intros l _. unfold f_ind. destruct (Nat.eqb _ _); ring. Qed.

Lemma mul_entry' dt n a b i j : dotting dt -> nnm n a -> (forall l, (l < n)%nat -> 0 <= b l j) -> (i < n)%nat ->
  lo n * rsumn n (fun l => a i l * b l j) - INR n * tiny <= f_mul dt n a b i j <= hi n * (rsumn n (fun l => a i l * b l j) + INR n * tiny).
Proof.
  intros D A B I. pose proof (fdot_bounds _ _ (D (map (fun l => (a i l, b l j)) (seq 0 n)))) as H.
  rewrite pairs_length, pairs_prods in H. apply H.
  intros x Hx. apply in_map_iff in Hx. destruct Hx as (l & <- & Hx). apply in_seq in Hx. split; simpl; [apply A|apply B]; lia.
Qed.

Section Lump.
  Variables (dt : list (R * R) -> R) (n m : nat) (p : fmat) (blk : nat -> nat).
  Hypotheses (D : dotting dt) (N : INR n <= 1000000000) (P : nnm n p).
  Hypothesis RS : forall i, (i < n)%nat -> rsumn n (p i) <= 2.
  Hypothesis OK : f_lumpable dt n m p blk.

  Let avg i b := rsumn n (fun j => rsumn n (fun l => f_rk n blk i l * p l j) * f_ind blk j b).

  Lemma into_le i b : (i < n)%nat -> 0 <= into n p blk i b <= 2.
  Proof.
    intros I. split.
    - apply rsumn_nonneg. intros j J. destruct (Nat.eqb _ _); [now apply P|lra].
    - eapply Rle_trans; [|apply (RS i I)]. apply rsumn_le. intros j J. destruct (Nat.eqb _ _); [lra|now apply P].
  Qed.

  Lemma into_avg i b : (i < n)%nat -> (b < m)%nat ->
    Rabs (into n p blk i b - avg i b) <= 16 * (INR n * uu).
  Proof.
    intros I B. specialize (OK i b I B). unfold f_lump_left, f_lump_right in OK.
    pose proof (rk_nonneg n blk) as NR. pose proof (mul_nonneg dt n _ _ D NR P) as NM.
    assert (NB : forall l, (l < n)%nat -> 0 <= f_ind blk l b) by (intros; unfold f_ind; destruct (Nat.eqb _ _); lra).
    pose proof (mul_entry' dt n p (f_ind blk) i b D P NB I) as RB. rewrite into_ind in RB.
    pose proof (mul_entry' dt n _ (f_ind blk) i b D NM NB I) as LB. rewrite OK in LB.
    set (v := f_mul dt n p (f_ind blk) i b) in *. set (x := INR n * uu).
    assert (NT : INR n * (INR n * tiny) <= uu / 1000) by (now apply absorb).
    pose proof (pos_INR n) as N0. pose proof tiny_pos as TP. pose proof uu_pos as UP.
    assert (N1 : 1 <= INR n) by (apply (le_INR 1); lia).
    assert (T0 : 0 <= INR n * tiny) by (apply Rmult_le_pos; lra).
    assert (T1 : INR n * tiny <= INR n * (INR n * tiny)) by nra.
    set (w := INR n * tiny) in *.
    assert (A0 : 0 <= avg i b).
    { apply rsumn_nonneg. intros j J. apply Rmult_le_pos; [|auto]. apply rsumn_nonneg. intros l L. apply Rmult_le_pos; auto. }
    (* the product of the averages with the indicator *)
    assert (MU : rsumn n (fun l => f_mul dt n (f_rk n blk) p i l * f_ind blk l b) <= hi n * (avg i b + INR n * w)).
    { eapply Rle_trans; [apply (rsumn_le n _ (fun j => hi n * (rsumn n (fun l => f_rk n blk i l * p l j) * f_ind blk j b + w)))|].
      - intros j J. pose proof (mul_entry dt n (f_rk n blk) p i j D NR P I J) as [_ U]. fold w in U.
        pose proof (hi_pos n). unfold f_ind. destruct (Nat.eqb _ _); [lra|].
        rewrite !Rmult_0_r. assert (0 <= hi n * w) by (apply Rmult_le_pos; lra). lra.
      - rewrite rsumn_scal, rsumn_add, rsumn_const. fold (avg i b). lra. }
    assert (ML : lo n * avg i b - INR n * w <= rsumn n (fun l => f_mul dt n (f_rk n blk) p i l * f_ind blk l b)).
    { eapply Rle_trans; [|apply (rsumn_le n (fun j => lo n * (rsumn n (fun l => f_rk n blk i l * p l j) * f_ind blk j b) + - w))].
      - rewrite rsumn_add, rsumn_const, rsumn_scal. fold (avg i b). lra.
      - intros j J. pose proof (mul_entry dt n (f_rk n blk) p i j D NR P I J) as [L _]. fold w in L.
        unfold f_ind. destruct (Nat.eqb _ _); lra. }
    assert (M00 : 0 <= rsumn n (fun l => f_mul dt n (f_rk n blk) p i l * f_ind blk l b)).
    { apply rsumn_nonneg. intros l L. apply Rmult_le_pos; auto. }
    set (M := rsumn n (fun l => _)) in *. set (t := avg i b) in *. clearbody t.
    pose proof (into_le i b I) as IL. set (s := into n p blk i b) in *. clearbody s v M.
    assert (NU : 0 <= x <= / 9000000) by (unfold x; split; [apply Rmult_le_pos; lra|rewrite uu_val; lra]).
    assert (Hx : uu <= x) by (unfold x; nra).
    pose proof (hi_le n ltac:(fold x; lra)) as H. pose proof (lo_ge n) as Lo. pose proof (lo_le1 n). pose proof (hi_ge1 n).
    fold x in H, Lo. fold x.
    set (h := hi n) in *. set (g := lo n) in *. clearbody h g. set (nw := INR n * w) in *. clearbody nw.
    assert (W : w <= x / 1000) by lra. assert (NW : nw <= x / 1000) by lra. assert (NW0 : 0 <= nw) by lra.
    clearbody w x. clear OK RS NR NM NB.
    destruct RB as [R1 R2]. destruct LB as [L1 L2].
    assert (xw : 0 <= x * w <= w) by nra. assert (xn : 0 <= x * nw <= nw) by nra.
    assert (xs : 0 <= x * s <= 2 * x) by nra.
    assert (V1 : v <= s + 5 * x).
    { apply (Rle_trans _ ((1 + 2 * x) * (s + w))); [eapply Rle_trans; [exact R2|]; apply Rmult_le_compat_r; lra|lra]. }
    assert (V2 : s - 3 * x <= v).
    { assert ((1 - x) * s <= g * s) by (apply Rmult_le_compat_r; lra). lra. }
    assert (M0 : (1 - x) * t - nw <= M).
    { assert ((1 - x) * t <= g * t) by (apply Rmult_le_compat_r; lra). lra. }
    assert (M1 : M <= (1 + 2 * x) * (t + nw)).
    { eapply Rle_trans; [exact MU|]. apply Rmult_le_compat_r; lra. }
    assert (GM : (1 - x) * M <= g * M) by (apply Rmult_le_compat_r; lra).
    assert (Tb : t <= 2 + / 1000).
    { destruct (Rle_lt_dec t (2 + / 1000)) as [|Q]; auto. exfalso.
      assert ((1 - x) * (2 + / 1000) <= (1 - x) * t) by (apply Rmult_le_compat_l; lra).
      assert (Q2 : 2 + / 2000 <= M) by lra.
      assert ((1 - x) * (2 + / 2000) <= (1 - x) * M) by (apply Rmult_le_compat_l; lra). lra. }
    assert (xt : 0 <= x * t <= (2 + / 1000) * x).
    { split; [apply Rmult_le_pos; lra|]. rewrite Rmult_comm. apply Rmult_le_compat_r; lra. }
    assert (Mb : M <= 3) by lra.
    assert (xM : 0 <= x * M <= 3 * x).
    { split; [apply Rmult_le_pos; lra|]. rewrite Rmult_comm. apply Rmult_le_compat_r; lra. }
    assert (V3 : v <= t + 11 * x).
    { apply (Rle_trans _ ((1 + 2 * x) * (M + w))); [eapply Rle_trans; [exact L2|]; apply Rmult_le_compat_r; lra|]. lra. }
    assert (V4 : t - 6 * x <= v) by lra.
    apply Rabs_le. lra.
  Qed.

  Lemma nearly_lumpable i i' b : (i < n)%nat -> (i' < n)%nat -> blk i = blk i' -> (b < m)%nat ->
    Rabs (into n p blk i b - into n p blk i' b) <= 32 * (INR n * uu).
  Proof.
    intros I I' E B. pose proof (into_avg i b I B) as A1. pose proof (into_avg i' b I' B) as A2.
    assert (EA : avg i b = avg i' b) by (unfold avg, f_rk; now rewrite E).
    rewrite EA in A1. apply Rabs_le_inv in A1, A2. apply Rabs_le. lra.
  Qed.
End Lump.
