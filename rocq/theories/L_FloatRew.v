(** L_FloatRew: accuracy of expected rewards computed in doubles. *)
From Coq Require Import Reals Lra Lia List ZArith Permutation.
From Flocq Require Import Core.
From Verif Require Import Fl M_Float S_Float L_Float1 L_FloatRed L_FloatSim M_FloatRew S_FloatRew.
Import ListNotations.
Local Open Scope R_scope.

(** ** the computed dot product, for numbers of any sign *)
Definition absprods (l : list (R * R)) : list R := map (fun ab => Rabs (fst ab * snd ab)) l.
Lemma absprods_nonneg l : 0 <= rsum (absprods l).
Proof. apply rsum_nonneg. intros x I. apply in_map_iff in I. destruct I as (ab & <- & _). apply Rabs_pos. Qed.
Lemma prods_abs l : Rabs (rsum (prods l)) <= rsum (absprods l).
Proof.
  induction l as [|a l IH]; cbn [prods absprods map rsum]; [rewrite Rabs_R0; lra|].
  eapply Rle_trans; [apply Rabs_triang|]. apply Rplus_le_compat_l. exact IH.
Qed.
Lemma fdot_error l v : fdot l v ->
  Rabs (v - rsum (prods l)) <= hi (length l) * (rsum (absprods l) + INR (length l) * tiny) - rsum (absprods l).
Proof.
  induction 1 as [|a b|l l1 l2 v1 v2 P H1 IH1 H2 IH2|l a b l' v P H IH]; pose proof tiny_pos as TP;
    pose proof uu_pos as UP; pose proof uu_lt1 as UL.
  - cbn. rewrite Rminus_0_r, Rabs_R0. lra.
  - pose proof (rnd_err (a * b)) as E. unfold hi; cbn [length prods absprods map rsum fst snd pow INR]. rewrite !Rplus_0_r, !Rmult_1_r, !Rmult_1_l.
    assert (0 <= uu * tiny) by (apply Rmult_le_pos; lra). lra.
  - pose proof (fdot_double _ _ H1) as F1. pose proof (fdot_double _ _ H2) as F2.
    rewrite (rsum_perm _ _ (prods_perm _ _ P)), (Permutation_length P), app_length.
    rewrite (rsum_perm (absprods l) (absprods (l1 ++ l2)) (Permutation_map _ P)).
    unfold prods, absprods; rewrite !map_app; fold (prods l1) (prods l2) (absprods l1) (absprods l2). rewrite !rsum_app.
    pose proof (absprods_nonneg l1) as N1. pose proof (absprods_nonneg l2) as N2.
    pose proof (prods_abs l1) as A1. pose proof (prods_abs l2) as A2.
    destruct l1 as [|a1 l1].
    { rewrite (fdot_nil _ H1), (Rplus_0_l v2), rnd_id by exact F2. cbn [length rsum plus prods absprods map]. rewrite !Rplus_0_l. exact IH2. }
    destruct l2 as [|a2 l2].
    { rewrite (fdot_nil _ H2), (Rplus_0_r v1), rnd_id by exact F1. simpl (length []). simpl (rsum (prods [])). simpl (rsum (absprods [])).
      rewrite !Rplus_0_r, Nat.add_0_r. exact IH1. }
    set (n1 := length (a1 :: l1)) in *. set (n2 := length (a2 :: l2)) in *.
    assert (EN : INR (n1 + n2) = INR n1 + INR n2) by apply plus_INR. rewrite EN.
    assert (K : exists k, (n1 + n2)%nat = S k /\ (n1 <= k)%nat /\ (n2 <= k)%nat) by (exists (n1 + n2 - 1)%nat; subst n1 n2; simpl; lia).
    destruct K as (k & -> & K1 & K2). rewrite hi_S.
    set (s1 := rsum (prods (a1 :: l1))) in *. set (s2 := rsum (prods (a2 :: l2))) in *.
    set (t1 := rsum (absprods (a1 :: l1))) in *. set (t2 := rsum (absprods (a2 :: l2))) in *.
    pose proof (rnd_add v1 v2 F1 F2) as E. 
    pose proof (pos_INR n1) as I1. pose proof (pos_INR n2) as I2.
    assert (T1 : 0 <= INR n1 * tiny) by (apply Rmult_le_pos; lra).
    assert (T2 : 0 <= INR n2 * tiny) by (apply Rmult_le_pos; lra).
    assert (V1 : hi n1 * (t1 + INR n1 * tiny) <= hi k * (t1 + INR n1 * tiny)) by (apply Rmult_le_compat_r; [lra|auto using hi_mono]).
    assert (V2 : hi n2 * (t2 + INR n2 * tiny) <= hi k * (t2 + INR n2 * tiny)) by (apply Rmult_le_compat_r; [lra|auto using hi_mono]).
    set (h1 := hi k * (t1 + INR n1 * tiny)) in *. set (h2 := hi k * (t2 + INR n2 * tiny)) in *.
    replace ((1 + uu) * hi k * (t1 + t2 + (INR n1 + INR n2) * tiny)) with ((1 + uu) * (h1 + h2)) by (unfold h1, h2; ring).
    assert (W : Rabs (v1 + v2) <= h1 + h2).
    { replace (v1 + v2) with ((v1 - s1) + (v2 - s2) + (s1 + s2)) by ring.
      pose proof (Rabs_triang (v1 - s1 + (v2 - s2)) (s1 + s2)). pose proof (Rabs_triang (v1 - s1) (v2 - s2)).
      pose proof (Rabs_triang s1 s2). lra. }
    assert (uu * Rabs (v1 + v2) <= uu * (h1 + h2)) by (apply Rmult_le_compat_l; lra).
    replace (rnd (v1 + v2) - (s1 + s2)) with ((rnd (v1 + v2) - (v1 + v2)) + ((v1 - s1) + (v2 - s2))) by ring.
    pose proof (Rabs_triang (rnd (v1 + v2) - (v1 + v2)) ((v1 - s1) + (v2 - s2))). pose proof (Rabs_triang (v1 - s1) (v2 - s2)). lra.
  - rewrite (rsum_perm _ _ (prods_perm _ _ P)), (Permutation_length P).
    rewrite (rsum_perm (absprods l) (absprods ((a, b) :: l')) (Permutation_map _ P)).
    cbn [length prods absprods map rsum fst snd]. fold (prods l') (absprods l').
    pose proof (absprods_nonneg l') as N. pose proof (prods_abs l') as A.
    set (k := length l') in *. rewrite hi_S, S_INR. set (s := rsum (prods l')) in *. set (t := rsum (absprods l')) in *.
    pose proof (rnd_err (a * b + v)) as E. set (z := a * b) in *.
    pose proof (pos_INR k) as Ik. assert (T : 0 <= INR k * tiny) by (apply Rmult_le_pos; lra).
    pose proof (hi_ge1 k) as H1. pose proof (Rabs_pos z) as Z.
    assert (Z1 : Rabs z <= hi k * Rabs z) by nra. assert (Z2 : tiny <= hi k * tiny) by nra.
    set (h := hi k * (t + INR k * tiny)) in *.
    replace ((1 + uu) * hi k * (Rabs z + t + (INR k + 1) * tiny)) with ((1 + uu) * (h + hi k * Rabs z + hi k * tiny)) by (unfold h; ring).
    assert (W : Rabs (z + v) <= Rabs z + h).
    { replace (z + v) with (z + ((v - s) + s)) by ring.
      pose proof (Rabs_triang z ((v - s) + s)). pose proof (Rabs_triang (v - s) s). lra. }
    assert (uu * Rabs (z + v) <= uu * (Rabs z + h)) by (apply Rmult_le_compat_l; lra).
    assert (uu * Rabs z <= uu * (hi k * Rabs z)) by (apply Rmult_le_compat_l; lra).
    assert (0 <= uu * (hi k * tiny)) by (apply Rmult_le_pos; [lra|apply Rmult_le_pos; lra]).
    replace (rnd (z + v) - (z + s)) with ((rnd (z + v) - (z + v)) + (v - s)) by ring.
    pose proof (Rabs_triang (rnd (z + v) - (z + v)) (v - s)). lra.
Qed.

(** ** exact rewards, step by step *)
Fixpoint earned (n : nat) (q : nat -> nat -> R) (r : nat -> R) (k : nat) : nat -> R :=
  match k with O => r | S k => fun i => r i + rsumn n (fun j => q i j * earned n q r k j) end.
Lemma reward_at_0 n q r i : (i < n)%nat -> reward_at n q r 0 i = r i.
Proof.
  intros I. unfold reward_at. cbn [steps]. unfold rsumn.
  assert (G : forall s m, (s <= i < s + m)%nat -> rsum (map (fun j => (if Nat.eqb i j then 1 else 0) * r j) (seq s m)) = r i).
  { intros s m. revert s. induction m as [|m IH]; intros s L; [lia|]. cbn [seq map rsum].
    destruct (Nat.eqb_spec i s) as [<-|NE].
    - rewrite (map_ext_in _ (fun _ => 0)); [rewrite rsum_map_const; lra|]. intros j J. apply in_seq in J.
      destruct (Nat.eqb_spec i j); [lia|lra].
    - rewrite IH by lia. lra. }
  apply G. lia.
Qed.
Lemma reward_at_S n q r t i : reward_at n q r (S t) i = rsumn n (fun l => q i l * reward_at n q r t l).
Proof.
  unfold reward_at. cbn [steps].
  transitivity (rsumn n (fun j => rsumn n (fun l => q i l * steps n q t l j * r j))).
  - apply rsumn_ext. intros j J. rewrite Rmult_comm, <- rsumn_scal. apply rsumn_ext. intros; ring.
  - rewrite rsumn_swap. apply rsumn_ext. intros l L. rewrite <- rsumn_scal. apply rsumn_ext. intros; ring.
Qed.
Lemma earned_total n q r k : forall i, (i < n)%nat -> earned n q r k i = total_reward n q r k i.
Proof.
  unfold total_reward. induction k as [|k IH]; intros i I.
  - unfold rsumn at 1. cbn [plus seq map rsum earned]. rewrite reward_at_0 by exact I. lra.
  - cbn [earned]. replace (S k + 1)%nat with (S (k + 1)) by lia.
    assert (E : rsumn (S (k + 1)) (fun t => reward_at n q r t i) = reward_at n q r 0 i + rsumn (k + 1) (fun t => reward_at n q r (S t) i)).
    { unfold rsumn. cbn [seq map rsum]. now rewrite <- seq_shift, map_map. }
    rewrite E, reward_at_0 by exact I. f_equal.
    transitivity (rsumn n (fun j => q i j * rsumn (k + 1) (fun t => reward_at n q r t j))); [apply rsumn_ext; intros j J; now rewrite IH|].
    transitivity (rsumn (k + 1) (fun t => rsumn n (fun j => q i j * reward_at n q r t j))).
    + rewrite rsumn_swap. apply rsumn_ext. intros j J. now rewrite rsumn_scal.
    + apply rsumn_ext. intros t _. now rewrite reward_at_S.
Qed.

Section Rewards.
Variables (dt : list (R * R) -> R) (n : nat) (q : nat -> nat -> R) (r : nat -> R) (M : R).
Hypothesis Dt : dotting dt.
Hypothesis K : (1 <= n)%nat.
Hypothesis N : INR n <= 1000000.
Hypothesis Q : stochasticR n q.
Hypothesis MB : / 10 ^ 100 <= M.
Hypothesis Rb : forall i, (i < n)%nat -> Rabs (r i) <= M.
Let x := INR n * uu.
Let p : fmat := fun i j => rnd (q i j).
Let r' := fun i => rnd (r i).

Lemma tiny_M : INR n * tiny <= x * M / 1000 /\ tiny <= x * M / 1000.
Proof.
  assert (B : bpow radix2 (-400) <= M / 1000).
  { apply Rle_trans with (/ 10 ^ 100 / 1000); [|unfold Rdiv; apply Rmult_le_compat_r; lra]. simpl. lra. }
  assert (T : tiny <= uu * M / 1000).
  { apply Rle_trans with (uu * bpow radix2 (-400)).
    - unfold tiny, uu. rewrite <- bpow_plus. apply bpow_le. lia.
    - replace (uu * M / 1000) with (uu * (M / 1000)) by (unfold Rdiv; ring). apply Rmult_le_compat_l; [pose proof uu_pos; lra|exact B]. }
  assert (N1 : 1 <= INR n) by (apply (le_INR 1); exact K). pose proof tiny_pos.
  assert (INR n * tiny <= x * M / 1000).
  { replace (x * M / 1000) with (INR n * (uu * M / 1000)) by (unfold x, Rdiv; ring). apply Rmult_le_compat_l; lra. }
  split; [assumption|]. apply Rle_trans with (INR n * tiny); [nra|assumption].
Qed.

Lemma step_near e E B d i : (i < n)%nat -> M <= B -> 0 <= d -> d <= B ->
  (forall j, (j < n)%nat -> is_double (e j)) -> (forall j, (j < n)%nat -> Rabs (E j) <= B) ->
  (forall j, (j < n)%nat -> Rabs (e j - E j) <= d) ->
  Rabs (rnd (r' i + dt (map (fun j => (p i j, e j)) (seq 0 n))) - (r i + rsumn n (fun j => q i j * E j))) <= d + 17 * x * B.
Proof.
  intros I MB' D0 DB De EB ED. destruct Q as [Q0 QT]. destruct tiny_M as [TN T1].
  assert (N1 : 1 <= INR n) by (apply (le_INR 1); exact K). pose proof uu_pos as UP. pose proof tiny_pos as TP. 
  assert (UV : uu <= / 1000000000000000) by (rewrite uu_val; lra).
  assert (X : 0 < x <= / 1000000000) by (unfold x; split; [apply Rmult_lt_0_compat; lra|nra]).
  assert (XU : uu <= x) by (unfold x; nra).
  assert (M0 : 0 < M) by (apply Rlt_le_trans with (/ 10 ^ 100); [apply Rinv_0_lt_compat, pow_lt; lra|exact MB]).
  assert (NT : INR n * tiny <= / 1000000000).
  { pose proof tiny_small. apply Rle_trans with (1000000 * (uu / 100000000000000000000)); [apply Rmult_le_compat; lra|lra]. }
  assert (NX : INR n * tiny <= x / 8).
  { pose proof tiny_small. replace (x / 8) with (INR n * (uu / 8)) by (unfold x, Rdiv; ring). apply Rmult_le_compat_l; lra. }
  assert (eB : forall j, (j < n)%nat -> Rabs (e j) <= 2 * B).
  { intros j J. replace (e j) with ((e j - E j) + E j) by ring. pose proof (Rabs_triang (e j - E j) (E j)). pose proof (EB j J). pose proof (ED j J). lra. }
  set (l := map (fun j => (p i j, e j)) (seq 0 n)). pose proof (fdot_error l (dt l) (Dt l)) as F.
  assert (LL : length l = n) by (unfold l; now rewrite map_length, seq_length).
  assert (LS : rsum (prods l) = rsumn n (fun j => p i j * e j)) by (unfold l, prods, rsumn; now rewrite map_map).
  assert (LA : rsum (absprods l) = rsumn n (fun j => Rabs (p i j * e j))) by (unfold l, absprods, rsumn; now rewrite map_map).
  rewrite LL, LS, LA in F. pose proof (fdot_double _ _ (Dt l)) as FD.
  (* the sum of the products *)
  assert (PQ : forall j, (j < n)%nat -> Rabs (p i j - q i j) <= uu * q i j + tiny).
  { intros j J. unfold p. pose proof (rnd_err (q i j)) as Er. rewrite (Rabs_pos_eq (q i j)) in Er by (apply Q0; auto). exact Er. }
  assert (A : rsumn n (fun j => Rabs (p i j * e j)) <= 3 * B).
  { apply Rle_trans with (rsumn n (fun j => 2 * B * ((1 + uu) * q i j + tiny))).
    - apply rsumn_le. intros j J. rewrite Rabs_mult, Rmult_comm. pose proof (Q0 i j I J) as Qj.
      apply Rmult_le_compat; [apply Rabs_pos|apply Rabs_pos|now apply eB|]. 
      replace (p i j) with ((p i j - q i j) + q i j) by ring. pose proof (Rabs_triang (p i j - q i j) (q i j)).
      rewrite (Rabs_pos_eq (q i j)) in H by exact Qj. pose proof (PQ j J). lra.
    - rewrite rsumn_scal, rsumn_add, rsumn_scal, rsumn_const, (QT i I).
      apply Rle_trans with (2 * B * (3 / 2)); [apply Rmult_le_compat_l; lra|lra]. }
  assert (A0 : 0 <= rsumn n (fun j => Rabs (p i j * e j))) by (apply rsumn_nonneg; intros; apply Rabs_pos).
  set (a := rsumn n (fun j => Rabs (p i j * e j))) in *.
  pose proof (hi_le n ltac:(fold x; lra)) as Hh. fold x in Hh. pose proof (hi_ge1 n) as Hl.
  assert (F1 : Rabs (dt l - rsumn n (fun j => p i j * e j)) <= 6 * x * B + 2 * (INR n * tiny)).
  { eapply Rle_trans; [exact F|]. 
    assert (hi n * (a + INR n * tiny) <= (1 + 2 * x) * (a + INR n * tiny)) by (apply Rmult_le_compat_r; [assert (0 <= INR n * tiny) by (apply Rmult_le_pos; lra); lra|lra]).
    assert (2 * x * a <= 2 * x * (3 * B)) by (apply Rmult_le_compat_l; lra).
    assert (0 <= INR n * tiny) by (apply Rmult_le_pos; lra).
    assert (2 * x * (INR n * tiny) <= 1 * (INR n * tiny)) by (apply Rmult_le_compat_r; lra). lra. }
  assert (F2 : Rabs (rsumn n (fun j => p i j * e j) - rsumn n (fun j => q i j * e j)) <= 2 * uu * B + 2 * B * (INR n * tiny)).
  { rewrite <- rsumn_sub. eapply Rle_trans; [apply rsumn_abs|].
    apply Rle_trans with (rsumn n (fun j => 2 * B * (uu * q i j + tiny))).
    - apply rsumn_le. intros j J. replace (p i j * e j - q i j * e j) with ((p i j - q i j) * e j) by ring.
      rewrite Rabs_mult, Rmult_comm. apply Rmult_le_compat; [apply Rabs_pos|apply Rabs_pos|now apply eB|now apply PQ].
    - rewrite rsumn_scal, rsumn_add, rsumn_scal, rsumn_const, (QT i I). lra. }
  assert (F3 : Rabs (rsumn n (fun j => q i j * e j) - rsumn n (fun j => q i j * E j)) <= d).
  { rewrite <- rsumn_sub. eapply Rle_trans; [apply rsumn_abs|].
    apply Rle_trans with (rsumn n (fun j => d * q i j)).
    - apply rsumn_le. intros j J. replace (q i j * e j - q i j * E j) with ((e j - E j) * q i j) by ring.
      rewrite Rabs_mult, (Rabs_pos_eq (q i j)) by (now apply Q0). apply Rmult_le_compat_r; [now apply Q0|now apply ED].
    - rewrite rsumn_scal, (QT i I). lra. }
  assert (F4 : Rabs (r' i - r i) <= uu * M + tiny).
  { unfold r'. pose proof (rnd_err (r i)). pose proof (Rmult_le_compat_l uu _ _ ltac:(lra) (Rb i I)). lra. }
  pose proof (rnd_add (r' i) (dt l) (is_double_rnd _) FD) as F5.
  set (y := dt l) in *. set (s1 := rsumn n (fun j => p i j * e j)) in *. set (s2 := rsumn n (fun j => q i j * e j)) in *.
  set (s3 := rsumn n (fun j => q i j * E j)) in *. set (t := INR n * tiny) in *. pose proof (Rb i I) as Ri.
  assert (S1 : Rabs s1 <= a) by (unfold s1, a; apply rsumn_abs).
  assert (t0 : 0 <= t) by (unfold t; apply Rmult_le_pos; lra).
  clearbody y s1 s2 s3 a t l.
  assert (Y : Rabs y <= 4 * B).
  { replace y with ((y - s1) + s1) by ring. pose proof (Rabs_triang (y - s1) s1).
    assert (6 * x * B <= / 10 * B) by (apply Rmult_le_compat_r; lra).
    assert (x * M / 1000 <= / 1000 * B) by nra. lra. }
  assert (R2 : Rabs (r' i) <= 2 * B).
  { replace (r' i) with ((r' i - r i) + r i) by ring. pose proof (Rabs_triang (r' i - r i) (r i)). 
    assert (uu * M <= / 10 * B) by (apply Rmult_le_compat; lra). assert (x * M / 1000 <= / 1000 * B) by nra. lra. }
  assert (F6 : Rabs (rnd (r' i + y) - (r' i + y)) <= 6 * x * B).
  { eapply Rle_trans; [exact F5|]. pose proof (Rabs_triang (r' i) y).
    apply Rle_trans with (uu * (6 * B)); [apply Rmult_le_compat_l; lra|]. replace (6 * x * B) with (x * (6 * B)) by ring.
    apply Rmult_le_compat_r; lra. }
  assert (G1 : uu * B <= x * B) by (apply Rmult_le_compat_r; lra).
  assert (G2 : uu * M <= x * B) by (apply Rmult_le_compat; lra).
  assert (G3 : x * M / 1000 <= x * B / 1000) by (apply Rmult_le_compat_r; [lra|apply Rmult_le_compat_l; lra]).
  assert (G4 : 2 * B * t <= x * B / 4).
  { apply Rle_trans with (B * (x / 4)); [|lra]. replace (2 * B * t) with (B * (2 * t)) by ring. apply Rmult_le_compat_l; [lra|].
    lra. }
  replace (rnd (r' i + y) - (r i + s3)) with ((rnd (r' i + y) - (r' i + y)) + ((r' i - r i) + ((y - s1) + ((s1 - s2) + (s2 - s3))))) by ring.
  pose proof (Rabs_triang (rnd (r' i + y) - (r' i + y)) ((r' i - r i) + ((y - s1) + ((s1 - s2) + (s2 - s3))))).
  pose proof (Rabs_triang (r' i - r i) ((y - s1) + ((s1 - s2) + (s2 - s3)))).
  pose proof (Rabs_triang (y - s1) ((s1 - s2) + (s2 - s3))). pose proof (Rabs_triang (s1 - s2) (s2 - s3)). lra.
Qed.

Lemma earned_bound k : forall i, (i < n)%nat -> Rabs (earned n q r k i) <= (INR k + 1) * M.
Proof.
  destruct Q as [Q0 QT]. induction k as [|k IH]; intros i I.
  - cbn [earned]. simpl INR. rewrite Rplus_0_l, Rmult_1_l. now apply Rb.
  - cbn [earned]. eapply Rle_trans; [apply Rabs_triang|]. rewrite S_INR.
    assert (Rabs (rsumn n (fun j => q i j * earned n q r k j)) <= (INR k + 1) * M).
    { eapply Rle_trans; [apply rsumn_abs|]. apply Rle_trans with (rsumn n (fun j => (INR k + 1) * M * q i j)).
      - apply rsumn_le. intros j J. rewrite Rabs_mult, (Rabs_pos_eq (q i j)) by (now apply Q0). rewrite Rmult_comm.
        apply Rmult_le_compat_r; [now apply Q0|now apply IH].
      - rewrite rsumn_scal, (QT i I). lra. }
    pose proof (Rb i I). lra.
Qed.
Lemma rewards_double k i : (i < n)%nat -> is_double (f_rewards dt n p r' k i).
Proof. intros I. destruct k; apply is_double_rnd. Qed.
Lemma rewards_near k : INR k <= 1000000 -> forall i, (i < n)%nat ->
  Rabs (f_rewards dt n p r' k i - earned n q r k i) <= 9 * (INR k + 1) ^ 2 * x * M.
Proof.
  assert (N1 : 1 <= INR n) by (apply (le_INR 1); exact K). pose proof uu_pos as UP. destruct tiny_M as [_ T1].
  assert (UV : uu <= / 1000000000000000) by (rewrite uu_val; lra).
  assert (X : 0 < x <= / 1000000000) by (unfold x; split; [apply Rmult_lt_0_compat; lra|nra]).
  assert (XU : uu <= x) by (unfold x; nra).
  assert (M0 : 0 < M) by (apply Rlt_le_trans with (/ 10 ^ 100); [apply Rinv_0_lt_compat, pow_lt; lra|exact MB]).
  assert (XM : 0 < x * M) by (apply Rmult_lt_0_compat; lra).
  induction k as [|k IH]; intros KB i I.
  - cbn [f_rewards earned]. unfold r'. pose proof (rnd_err (r i)) as E. pose proof (Rb i I) as B.
    assert (uu * Rabs (r i) <= x * M) by (apply Rmult_le_compat; [lra|apply Rabs_pos|lra|lra]). simpl INR. lra.
  - rewrite S_INR in KB. specialize (IH ltac:(lra)). pose proof (pos_INR k) as K0.
    cbn [f_rewards earned].
    assert (DB : 9 * (INR k + 1) ^ 2 * x * M <= (INR k + 1) * M).
    { replace (9 * (INR k + 1) ^ 2 * x * M) with ((9 * (INR k + 1) * x) * ((INR k + 1) * M)) by ring.
      rewrite <- (Rmult_1_l ((INR k + 1) * M)) at 2. apply Rmult_le_compat_r; [apply Rmult_le_pos; lra|].
      apply Rle_trans with (9 * 1000001 * / 1000000000); [|lra]. apply Rmult_le_compat; lra. }
    eapply Rle_trans; [apply (step_near (f_rewards dt n p r' k) (earned n q r k) ((INR k + 1) * M) (9 * (INR k + 1) ^ 2 * x * M) i I)|].
    + rewrite <- (Rmult_1_l M) at 1. apply Rmult_le_compat_r; lra.
    + apply Rmult_le_pos; [|lra]. apply Rmult_le_pos; [|lra]. apply Rmult_le_pos; [lra|]. apply pow_le. lra.
    + exact DB.
    + intros j J. now apply rewards_double.
    + intros j J. now apply earned_bound.
    + intros j J. now apply IH.
    + rewrite S_INR.
      replace (9 * (INR k + 1 + 1) ^ 2 * x * M) with (9 * (INR k + 1) ^ 2 * x * M + (18 * (INR k + 1) + 9) * (x * M)) by ring.
      replace (17 * x * ((INR k + 1) * M)) with (17 * (INR k + 1) * (x * M)) by ring.
      apply Rplus_le_compat_l. apply Rmult_le_compat_r; lra.
Qed.
End Rewards.

Theorem typed_rewards dt n q r M k i : dotting dt -> (1 <= n)%nat -> INR n <= 1000000 -> INR k <= 1000000 -> stochasticR n q ->
  / 10 ^ 100 <= M -> (forall i, (i < n)%nat -> Rabs (r i) <= M) -> (i < n)%nat ->
  Rabs (f_rewards dt n (fun i j => rnd (q i j)) (fun i => rnd (r i)) k i - total_reward n q r k i) <= 9 * (INR k + 1) ^ 2 * INR n * uu * M.
Proof.
  intros Dt K N KB Q MB Rb I. rewrite <- (earned_total n q r k i I).
  replace (9 * (INR k + 1) ^ 2 * INR n * uu * M) with (9 * (INR k + 1) ^ 2 * (INR n * uu) * M) by ring.
  exact (rewards_near dt n q r M Dt K N Q MB Rb k KB i I).
Qed.
Theorem rewards_at_least dt n p r k : dotting dt -> (forall i j, (i < n)%nat -> (j < n)%nat -> 0 <= p i j) ->
  (forall i, (i < n)%nat -> is_double (r i) /\ 0 <= r i) -> forall i, (i < n)%nat -> r i <= f_rewards dt n p r k i.
Proof.
  intros Dt P Rr. induction k as [|k IH]; intros i I; cbn [f_rewards]; [lra|].
  rewrite <- (rnd_id (r i)) at 1 by apply (Rr i I). apply rnd_le.
  assert (0 <= dt (map (fun j => (p i j, f_rewards dt n p r k j)) (seq 0 n))); [|lra].
  apply (fdot_nonneg _ _ (Dt _)). intros ab J. apply in_map_iff in J. destruct J as (j & <- & J). apply in_seq in J.
  split; cbn [fst snd]; [apply P; lia|]. assert (J' : (j < n)%nat) by lia. pose proof (IH j J'). destruct (Rr j J'). lra.
Qed.

(** ** an example *)
Definition coin : nat -> nat -> R := fun _ _ => 1 / 2.
Lemma coin_stochastic : stochasticR 2 coin.
Proof. split; [intros; unfold coin; lra|]. intros i _. unfold rsumn, coin. cbn [seq map rsum]. lra. Qed.
Definition stakes : nat -> R := fun i => match i with O => 1 | _ => - 3 end.
Lemma stakes_bound i : (i < 2)%nat -> Rabs (stakes i) <= 3.
Proof. intros _. destruct i; unfold stakes; apply Rabs_le; lra. Qed.
Lemma stakes_total : total_reward 2 coin stakes 2 0 = - 1.
Proof. unfold total_reward, reward_at, rsumn. cbn [plus seq map rsum steps]. unfold rsumn. cbn [seq map rsum Nat.eqb]. unfold coin, stakes. lra. Qed.
