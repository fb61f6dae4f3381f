(** L_FloatHmm: simulation of hidden models in doubles. *)
From Coq Require Import Reals Lra Lia List ZArith Bool.
From Flocq Require Import Core.
From Verif Require Import Fl M_Float S_Float L_Float1 L_Float2 M_FloatSim S_FloatSim L_FloatSim M_FloatHmm S_FloatHmm.
Import ListNotations.
Local Open Scope R_scope.

Section Pick.
Variables (n : nat) (w : nat -> R).
Hypothesis N1 : (1 <= n)%nat.
Hypothesis N : INR n <= 1000000.
Hypothesis D : forall j, (j < n)%nat -> is_double (w j) /\ 0 <= w j.
Hypothesis T : Rabs (rsumn n w - 1) <= / 100000000.

Lemma pick_go_spec u j : (pick_go n w u j <= j)%nat /\
  (match pick_go n w u j with O => True | S i => f_cdf n w i < u end) /\
  (forall i, (pick_go n w u j <= i < j)%nat -> u <= f_cdf n w i).
Proof.
  induction j as [|j IH]; [cbn; repeat split; auto; intros; lia|]. cbn [pick_go].
  destruct (Rlt_dec (f_cdf n w j) u) as [L|L].
  - split; [lia|]. split; [exact L|]. intros; lia.
  - destruct IH as (A & B & C). split; [lia|]. split; [exact B|]. intros i I.
    destruct (Nat.eq_dec i j) as [->|]; [lra|]. apply C. lia.
Qed.
Lemma pick_range u : (f_pick n w u < n)%nat.
Proof. unfold f_pick. destruct (pick_go_spec u (n - 1)) as [A _]. lia. Qed.
Lemma pick_iff u j : u < 1 -> (j < n)%nat ->
  (f_pick n w u = j <-> (match j with O => True | S i => f_cdf n w i < u end) /\ u <= f_cdf n w j).
Proof.
  intros U J. destruct (pick_go_spec u (n - 1)) as (A & B & C). fold (f_pick n w u) in A, B, C.
  assert (E : u <= f_cdf n w (f_pick n w u)).
  { destruct (Nat.eq_dec (f_pick n w u) (n - 1)) as [E|E]; [rewrite E, (cdf_last n w N1 N D T); lra|apply C; lia]. }
  split.
  - intros <-. split; [exact B|exact E].
  - intros [P Q]. set (s := f_pick n w u) in *. clearbody s.
    destruct (Nat.lt_trichotomy s j) as [L|[L|L]]; [exfalso|exact L|exfalso].
    + destruct j as [|i]; [lia|]. pose proof (cdf_le n w N1 N D T s i ltac:(lia) ltac:(lia)). lra.
    + destruct s as [|i]; [lia|]. pose proof (cdf_le n w N1 N D T j i ltac:(lia) ltac:(lia)). lra.
Qed.
Lemma pick_possible u : 0 < u < 1 -> (f_pick n w u < n)%nat /\ 0 < w (f_pick n w u).
Proof.
  intros U. split; [apply pick_range|]. pose proof (pick_range u) as J. set (j := f_pick n w u) in *.
  assert (E : f_pick n w u = j) by reflexivity. clearbody j. apply pick_iff in E; [|lra|exact J]. destruct E as [A B].
  destruct (D j J) as [_ [P|Z]]; [exact P|exfalso]. symmetry in Z. destruct j as [|i].
  - unfold f_cdf in B. cbn [f_cumsum] in B. rewrite Z in B. unfold Rdiv in B. rewrite Rmult_0_l, rnd_0 in B. lra.
  - assert (Q : f_cdf n w (S i) = f_cdf n w i) by (unfold f_cdf; now rewrite (cum_zero n w N1 D)). lra.
Qed.
Lemma pick_at_zero : f_pick n w 0 = 0%nat.
Proof.
  apply pick_iff; [lra|lia|]. split; [exact I|]. apply rnd_nonneg.
  apply Rmult_le_pos; [apply (cum_dnn n w N1 D); lia|left; apply Rinv_0_lt_compat, (last_pos n w N1 N D T)].
Qed.
Lemma cdf_step j : (j < n)%nat ->
  Rabs ((f_cdf n w j - match j with O => 0 | S i => f_cdf n w i end) - w j / rsumn n w) <= 12 * (INR n * uu).
Proof.
  intros J. pose proof (cdf_near n w N1 N D T j J) as E. pose proof (tot n w T) as TT.
  assert (X : 0 <= INR n * uu) by (apply Rmult_le_pos; [apply pos_INR|pose proof uu_pos; lra]). destruct j as [|i].
  - replace (w 0%nat) with (rsumn 1 w) by (unfold rsumn; cbn [seq map rsum]; ring). rewrite Rminus_0_r. lra.
  - pose proof (cdf_near n w N1 N D T i ltac:(lia)) as E'. rewrite (rsumn_S (S i)) in E.
    replace (f_cdf n w (S i) - f_cdf n w i - w (S i) / rsumn n w) with
      ((f_cdf n w (S i) - (rsumn (S i) w + w (S i)) / rsumn n w) + - (f_cdf n w i - rsumn (S i) w / rsumn n w))
      by (field; lra).
    eapply Rle_trans; [apply Rabs_triang|]. rewrite Rabs_Ropp. lra.
Qed.
End Pick.

Theorem typed_pick_law n (q : nat -> R) j : (1 <= n)%nat -> INR n <= 1000000 -> (forall j, (j < n)%nat -> 0 <= q j) -> rsumn n q = 1 ->
  (j < n)%nat ->
  exists lo hi, (forall u, 0 < u < 1 -> (f_pick n (fun j => rnd (q j)) u = j <-> lo < u <= hi)) /\
    0 <= lo <= hi /\ hi <= 1 /\ Rabs ((hi - lo) - q j) <= 17 * INR n * uu.
Proof.
  intros K N Q T J. destruct (typed_sum n q K N Q T) as [A B]. pose proof (small_total n N) as ST.
  set (w := fun j => rnd (q j)) in *.
  assert (B' : Rabs (rsumn n w - 1) <= / 100000000) by lra.
  exists (match j with O => 0 | S i => f_cdf n w i end), (f_cdf n w j).
  assert (C0 : forall i, (i < n)%nat -> 0 <= f_cdf n w i).
  { intros i I. apply rnd_nonneg. apply Rmult_le_pos; [apply (cum_dnn n w K A); exact I|left; apply Rinv_0_lt_compat, (last_pos n w K N A B')]. }
  split; [|split; [|split]].
  - intros u U. rewrite (pick_iff n w K N A B' u j) by (lra || exact J). destruct j as [|i]; [|reflexivity].
    split; [intros [_ X]; lra|intros X; split; [exact I|lra]].
  - destruct j as [|i]; [split; [lra|now apply C0]|]. split; [apply C0; lia|apply (cdf_mono n w K N A B'); lia].
  - rewrite <- (cdf_last n w K N A B'). apply (cdf_le n w K N A B'); lia.
  - pose proof (cdf_step n w K N A B' j J) as W. set (g := f_cdf n w j - _) in *. clearbody g.
    assert (N1 : 1 <= INR n) by (apply (le_INR 1); exact K).
    assert (P1 : q j <= 1) by (rewrite <- T; apply rsumn_in; auto).
    pose proof (Q j J) as P0. pose proof (rnd_0_up _ P0) as RU. pose proof (rnd_0_lo _ P0) as RL.
    pose proof uu_pos as UP. pose proof tiny_uu as TU. pose proof tiny_pos as TP.
    pose proof (rnd_le_1 _ P1) as R1. pose proof (rnd_nonneg _ P0) as R0.
    replace (17 * INR n * uu) with (17 * (INR n * uu)) by ring.
    assert (XU : uu <= INR n * uu) by nra. change (w j) with (rnd (q j)) in W.
    set (t := rsumn n w) in *. set (v := rnd (q j)) in *. set (x := INR n * uu) in *. set (p := q j) in *.
    clearbody t v x p. apply Rabs_le_inv in B.
    assert (V : Rabs (v - p) <= 2 * x) by (apply Rabs_le; nra).
    assert (DD : Rabs (v / t - v) <= 3 * x).
    { replace (v / t - v) with ((1 - t) * (v / t)) by (field; lra). rewrite Rabs_mult.
      assert (V0 : 0 <= v / t) by (apply Rmult_le_pos; [lra|left; apply Rinv_0_lt_compat; lra]).
      assert (V1 : v / t <= 3 / 2).
      { apply (Rmult_le_reg_r t); [lra|]. unfold Rdiv. rewrite Rmult_assoc, Rinv_l by lra. lra. }
      rewrite (Rabs_pos_eq (v / t)) by exact V0. apply Rle_trans with (2 * x * (3 / 2)); [|lra].
      apply Rmult_le_compat; [apply Rabs_pos|exact V0|apply Rabs_le; lra|exact V1]. }
    replace (g - p) with ((g - v / t) + ((v / t - v) + (v - p))) by ring.
    eapply Rle_trans; [apply Rabs_triang|]. pose proof (Rabs_triang (v / t - v) (v - p)). lra.
Qed.

Lemma typed_pick n (q : nat -> R) u : (1 <= n)%nat -> INR n <= 1000000 -> (forall j, (j < n)%nat -> 0 <= q j) -> rsumn n q = 1 ->
  0 < u < 1 -> (f_pick n (fun j => rnd (q j)) u < n)%nat /\ 0 < q (f_pick n (fun j => rnd (q j)) u).
Proof.
  intros K N Q T U. destruct (typed_sum n q K N Q T) as [A B]. pose proof (small_total n N) as ST.
  destruct (pick_possible n (fun j => rnd (q j)) K N A ltac:(cbn beta; lra) u U) as [R P]. split; [exact R|].
  destruct (Q _ R) as [X|X]; [exact X|]. rewrite <- X, rnd_0 in P. lra.
Qed.

Lemma hits_iff f s : hits f s = true <-> f = Some s.
Proof. destruct f as [f|]; cbn; [|split; discriminate]. rewrite Nat.eqb_eq. split; [intros ->; reflexivity|congruence]. Qed.
Lemma final_iff fs fy s y : (hits fs s || hits fy y)%bool = true <-> is_final fs fy (s, y).
Proof. rewrite orb_true_iff, !hits_iff. reflexivity. Qed.

Theorem loop_possible n k q e fs fy us : (1 <= n)%nat -> (1 <= k)%nat -> INR n <= 1000000 -> INR k <= 1000000 -> rowsR n n q -> rowsR n k e ->
  inner_draws us -> forall cur, (cur < n)%nat ->
  let r := f_hmm_loop n k (fun i j => rnd (q i j)) (fun i j => rnd (e i j)) fs fy cur us in
  possible_run n k q e cur r /\ stops fs fy (length us) r.
Proof.
  intros N1 K1 N K [Q QT] [E ET]. induction us as [|[u v] us IH]; intros DU cur C r.
  - subst r. cbn. split; [exact I|]. split; [cbn; auto|]. split; [intros sy []|left; reflexivity].
  - destruct (DU u v (or_introl eq_refl)) as [U V].
    destruct (typed_pick n (q cur) u N1 N (fun j => Q cur j C) (QT cur C) U) as [S1 P1].
    unfold r. clear r. cbn [f_hmm_loop]. set (s := f_pick n (fun j => rnd (q cur j)) u) in *.
    destruct (typed_pick k (e s) v K1 K (fun j => E s j S1) (ET s S1) V) as [Y1 P2].
    set (y := f_pick k (fun j => rnd (e s j)) v) in *.
    destruct (hits fs s || hits fy y)%bool eqn:F.
    + apply final_iff in F. split; [cbn; auto|]. split; [cbn; lia|]. split; [intros sy []|].
      right. exists [], (s, y). split; [reflexivity|exact F].
    + assert (NF : ~ is_final fs fy (s, y)) by (intros X; apply final_iff in X; congruence).
      destruct (IH (fun a b I => DU a b (or_intror I)) s S1) as (W & L1 & L2 & L3).
      set (t := f_hmm_loop _ _ _ _ _ _ _ _) in *. clearbody t.
      split; [cbn; auto|]. split; [cbn; lia|]. split.
      * destruct t as [|h t]; [cbn; intros sy X; contradiction|]. change (removelast ((s, y) :: h :: t)) with ((s, y) :: removelast (h :: t)).
        intros sy [<-|X]; [exact NF|now apply L2].
      * destruct L3 as [L3|(r' & sy & -> & X)]; [left; cbn; now rewrite L3|right; exists ((s, y) :: r'), sy; split; [reflexivity|exact X]].
Qed.

Theorem hmm_possible n k q e init fs fy u0 us : (1 <= n)%nat -> (1 <= k)%nat -> INR n <= 1000000 -> INR k <= 1000000 ->
  rowsR n n q -> rowsR n k e -> 0 <= u0 < 1 -> inner_draws us -> (init < n)%nat ->
  exists y r, f_hmm_simulate n k (fun i j => rnd (q i j)) (fun i j => rnd (e i j)) init fs fy u0 us = Some ((init, y) :: r) /\
    (y < k)%nat /\ 0 < e init y /\ possible_run n k q e init r /\ stops fs fy (length us) r.
Proof.
  intros N1 K1 N K Q E U DU I. pose proof E as [E0 ET].
  destruct (typed_sum k (e init) K1 K (fun j => E0 init j I) (ET init I)) as [A B]. pose proof (small_total k K) as ST.
  destruct (choice_possible k (fun j => rnd (e init j)) K1 K A ltac:(cbn beta; lra) u0 U) as (y & Y & C & P).
  unfold f_hmm_simulate. rewrite C. exists y. eexists. split; [reflexivity|]. split; [exact Y|].
  split; [|exact (loop_possible n k q e fs fy us N1 K1 N K Q E DU init I)].
  destruct (E0 init y I Y) as [X|X]; [exact X|]. rewrite <- X, rnd_0 in P. lra.
Qed.

(** ** the draw 0 *)
Definition swapping : nat -> nat -> R := fun i j => if Nat.eqb i j then 0 else 1.
Lemma swapping_rows : rowsR 2 2 swapping.
Proof.
  split; [intros; unfold swapping; destruct (Nat.eqb i j); lra|]. intros [|[|i]] I; [| |lia]; unfold rsumn, swapping; cbn [seq map rsum Nat.eqb]; lra.
Qed.
Theorem zero_draw : rowsR 2 2 swapping /\ swapping 0%nat 0%nat = 0 /\
  exists y r, f_hmm_simulate 2 2 (fun i j => rnd (swapping i j)) (fun i j => rnd (swapping i j)) 0 None None 0 [(0, 1 / 2)] =
    Some [(0%nat, y); (0%nat, r)].
Proof.
  split; [exact swapping_rows|]. split; [reflexivity|].
  destruct swapping_rows as [E0 ET].
  destruct (typed_sum 2 (swapping 0) ltac:(lia) ltac:(simpl; lra) (fun j => E0 0%nat j ltac:(lia)) (ET 0%nat ltac:(lia))) as [A B].
  pose proof (small_total 2 ltac:(simpl; lra)) as ST.
  destruct (choice_possible 2 (fun j => rnd (swapping 0 j)) ltac:(lia) ltac:(simpl; lra) A ltac:(cbn beta; lra) 0 ltac:(lra)) as (y & _ & C & _).
  unfold f_hmm_simulate. rewrite C. exists y. cbn [f_hmm_loop hits orb].
  rewrite (pick_at_zero 2 (fun j => rnd (swapping 0 j)) ltac:(lia) ltac:(simpl; lra) A ltac:(cbn beta; lra)).
  eexists. reflexivity.
Qed.
