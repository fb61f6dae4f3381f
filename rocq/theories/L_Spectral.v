(** L_Spectral: powers of a matrix that is similar to a triangular one. *)
From Verif Require Import S_Spectral.
From Coq Require Import Reals Lra Psatz.
Close Scope Q_scope. Close Scope R_scope.
Open Scope nat_scope.

(** ** powers *)
Lemma cmpow_ceq n A B k : ceq n A B -> ceq n (cmpow n A k) (cmpow n B k).
Proof. intros H. induction k; cbn [cmpow]; [apply ceq_refl|apply cmm_ceq; assumption]. Qed.
Lemma conj_pow n A V W T : ceq n (cmm n V W) cid -> ceq n (cmm n W V) cid -> ceq n (cmm n A V) (cmm n V T) ->
  forall k, ceq n (cmm n (cmpow n A k) V) (cmm n V (cmpow n T k)).
Proof.
  intros VW WV H k. induction k; cbn [cmpow].
  - apply (ceq_trans n _ V); [apply cmm_id_l|apply ceq_sym, cmm_id_r].
  - eapply ceq_trans; [apply cmm_assoc|]. eapply ceq_trans; [apply cmm_ceq; [apply ceq_refl|exact IHk]|].
    eapply ceq_trans; [apply ceq_sym, cmm_assoc|]. eapply ceq_trans; [apply cmm_ceq; [exact H|apply ceq_refl]|]. apply cmm_assoc.
Qed.
Lemma conj_to n A V W T : ceq n (cmm n V W) cid -> ceq n (cmm n W V) cid -> ceq n (cmm n A V) (cmm n V T) ->
  forall k, ceq n (cmpow n T k) (cmm n W (cmm n (cmpow n A k) V)).
Proof.
  intros VW WV H k. apply ceq_sym. eapply ceq_trans; [apply cmm_ceq; [apply ceq_refl|apply (conj_pow n A V W T); assumption]|].
  eapply ceq_trans; [apply ceq_sym, cmm_assoc|]. eapply ceq_trans; [apply cmm_ceq; [exact WV|apply ceq_refl]|]. apply cmm_id_l.
Qed.
Lemma conj_from n A V W T : ceq n (cmm n V W) cid -> ceq n (cmm n W V) cid -> ceq n (cmm n A V) (cmm n V T) ->
  forall k, ceq n (cmpow n A k) (cmm n V (cmm n (cmpow n T k) W)).
Proof.
  intros VW WV H k. apply ceq_sym. eapply ceq_trans; [apply ceq_sym, cmm_assoc|].
  eapply ceq_trans; [apply cmm_ceq; [apply ceq_sym, (conj_pow n A V W T); assumption|apply ceq_refl]|].
  eapply ceq_trans; [apply cmm_assoc|]. eapply ceq_trans; [apply cmm_ceq; [apply ceq_refl|exact VW]|]. apply cmm_id_r.
Qed.
Definition upper (n : nat) (T : cmat) : Prop := forall i j, i < n -> j < i -> T i j = zeroC.
Lemma upper_pow n T : upper n T -> forall k, upper n (cmpow n T k) /\ forall i, i < n -> cmpow n T k i i = cpow (T i i) k.
Proof.
  intros U k. induction k as [|k [I1 I2]]; cbn [cmpow cpow]; [split|split].
  - intros i j Hi Hj. unfold cid. destruct (Nat.eqb_spec i j); [lia|reflexivity].
  - intros i Hi. unfold cid. rewrite Nat.eqb_refl. reflexivity.
  - intros i j Hi Hj. unfold cmm. apply csum_0. intros l Hl. destruct (Nat.lt_ge_cases l i) as [L|L].
    + rewrite U by assumption. ring.
    + rewrite (I1 l j) by lia. ring.
  - intros i Hi. unfold cmm. rewrite (csum_single n _ i Hi).
    + rewrite I2 by exact Hi. reflexivity.
    + intros l Hl N. destruct (Nat.lt_ge_cases l i) as [L|L]; [rewrite U by assumption; ring|rewrite (I1 l i) by lia; ring].
Qed.

(** ** bounds for the powers *)
Lemma entry_bound n (A : cmat) : exists b, (0 < b)%R /\ forall i j, i < n -> j < n -> (cmod (A i j) <= b)%R.
Proof.
  exists (rsm n (fun i => rsm n (fun j => cmod (A i j))) + 1)%R. split.
  - enough (0 <= rsm n (fun i => rsm n (fun j => cmod (A i j))))%R by lra. apply rsm_nonneg. intros i Hi. apply rsm_nonneg. intros j Hj. apply cmod_nonneg.
  - intros i j Hi Hj. enough (cmod (A i j) <= rsm n (fun i => rsm n (fun j => cmod (A i j))))%R by lra.
    eapply Rle_trans; [|apply (rsm_term n (fun i => rsm n (fun j => cmod (A i j))) i); [|exact Hi]].
    + apply (rsm_term n (fun j => cmod (A i j))); [|exact Hj]. intros; apply cmod_nonneg.
    + intros l Hl. apply rsm_nonneg. intros. apply cmod_nonneg.
Qed.
Lemma cmm_bound n A B a b i j : i < n -> j < n -> (forall k, k < n -> (cmod (A i k) <= a)%R) -> (forall k, k < n -> (cmod (B k j) <= b)%R) ->
  (cmod (cmm n A B i j) <= INR n * (a * b))%R.
Proof.
  intros Hi Hj Ha Hb. eapply Rle_trans; [apply cmod_csum|]. rewrite <- rsm_const. apply rsm_le. intros k Hk. rewrite cmod_mul.
  apply Rmult_le_compat; try apply cmod_nonneg; auto.
Qed.
Definition pow_bound (n : nat) (A : cmat) (rho : R) : Prop :=
  exists c : R, forall k i j, i < n -> j < n -> (cmod (cmpow n A k i j) <= c * rho ^ k)%R.
Lemma pow_bound_conj n A B V W rho : (0 <= rho)%R -> (forall k, ceq n (cmpow n B k) (cmm n W (cmm n (cmpow n A k) V))) ->
  pow_bound n A rho -> pow_bound n B rho.
Proof.
  intros Hr E (c & Hc). destruct (entry_bound n V) as (v & Pv & Hv). destruct (entry_bound n W) as (w & Pw & Hw).
  exists (INR n * (w * (INR n * (c * v))))%R. intros k i j Hi Hj. rewrite (E k i j Hi Hj).
  replace (INR n * (w * (INR n * (c * v))) * rho ^ k)%R with (INR n * (w * (INR n * ((c * rho ^ k) * v))))%R by ring.
  apply cmm_bound; auto. intros l Hl. apply cmm_bound; auto.
Qed.
(** An upper triangular matrix whose diagonal is below rho. *)
Lemma upper_bound n T s rho : upper n T -> (0 <= s)%R -> (s < rho)%R -> (forall i, i < n -> (cmod (T i i) <= s)%R) -> pow_bound n T rho.
Proof.
  intros U Hs Hr Hd. destruct (entry_bound n T) as (b & Pb & Hb).
  set (e := Rmin 1 ((rho - s) / (INR n * b + 1))).
  pose proof (pos_INR n) as Pn.
  assert (Pd : (0 < INR n * b + 1)%R) by nra.
  assert (Pe : (0 < e)%R). { unfold e. apply Rmin_pos; [lra|]. apply Rdiv_lt_0_compat; lra. }
  assert (Le : (e <= 1)%R) by apply Rmin_l.
  assert (Be : (INR n * (b * e) <= rho - s)%R).
  { assert (K : (e <= (rho - s) / (INR n * b + 1))%R) by apply Rmin_r.
    apply (Rmult_le_compat_r (INR n * b + 1)) in K; [|lra]. unfold Rdiv in K. rewrite Rmult_assoc, Rinv_l, Rmult_1_r in K by lra. nra. }
  assert (Row : forall i, i < n -> (rsm n (fun j => cmod (T i j) * e ^ j) <= rho * e ^ i)%R).
  { intros i Hi. pose proof (pow_lt e i Pe) as Pi.
    eapply Rle_trans; [apply (rsm_le n _ (fun j => (if Nat.eqb j i then s * e ^ i else 0) + (b * e) * e ^ i)%R)|].
    - intros j Hj. destruct (Nat.eqb_spec j i) as [->|N].
      + assert (0 <= b * e * e ^ i)%R by (apply Rmult_le_pos; [nra|lra]). assert (cmod (T i i) * e ^ i <= s * e ^ i)%R by (apply Rmult_le_compat_r; [lra|auto]). lra.
      + destruct (Nat.lt_ge_cases j i) as [L|L].
        * rewrite U, cmod_0 by assumption. assert (0 <= b * e * e ^ i)%R by (apply Rmult_le_pos; [nra|lra]). lra.
        * assert (X : (e ^ j <= e * e ^ i)%R).
          { replace j with (j - S i + S i) by lia. rewrite pow_add. cbn [pow].
            assert (e ^ (j - S i) <= 1)%R. { rewrite <- (pow1 (j - S i)). apply pow_incr. lra. }
            assert (0 <= e * e ^ i)%R by nra. nra. }
          assert (cmod (T i j) * e ^ j <= b * (e * e ^ i))%R.
          { apply Rmult_le_compat; [apply cmod_nonneg|apply Rlt_le, pow_lt, Pe|auto|exact X]. }
          lra.
    - rewrite rsm_add, rsm_const, (rsm_single n _ i Hi); [|intros j Hj N; destruct (Nat.eqb_spec j i); [congruence|reflexivity]].
      rewrite Nat.eqb_refl. nra. }
  assert (Main : forall k i, i < n -> (rsm n (fun j => cmod (cmpow n T k i j) * e ^ j) <= rho ^ k * e ^ i)%R).
  { intros k. induction k as [|k IH]; intros i Hi; cbn [cmpow pow].
    - rewrite (rsm_single n _ i Hi); [|intros j Hj N; unfold cid; destruct (Nat.eqb_spec i j); [congruence|rewrite cmod_0; ring]].
      unfold cid. rewrite Nat.eqb_refl, cmod_1. lra.
    - eapply Rle_trans; [apply (rsm_le n _ (fun j => rsm n (fun l => cmod (T i l) * (cmod (cmpow n T k l j) * e ^ j))%R))|].
      + intros j Hj. pose proof (pow_lt e j Pe). rewrite (rsm_ext n _ (fun l => (cmod (T i l) * cmod (cmpow n T k l j)) * e ^ j)%R) by (intros; ring).
        rewrite rsm_mul_r. apply Rmult_le_compat_r; [lra|]. eapply Rle_trans; [apply cmod_csum|].
        apply Req_le, rsm_ext. intros. apply cmod_mul.
      + rewrite rsm_swap. eapply Rle_trans; [apply (rsm_le n _ (fun l => rho ^ k * (cmod (T i l) * e ^ l))%R)|].
        * intros l Hl. rewrite rsm_mul_l. pose proof (IH l Hl). pose proof (cmod_nonneg (T i l)). nra.
        * rewrite rsm_mul_l. pose proof (Row i Hi). assert (0 <= rho ^ k)%R by (apply pow_le; lra). nra. }
  exists (/ e ^ n)%R. intros k i j Hi Hj. pose proof (Main k i Hi) as M. pose proof (pow_lt e n Pe) as Pen. pose proof (pow_lt e i Pe) as Pei. pose proof (pow_lt e j Pe) as Pej.
  assert (Q1 : (cmod (cmpow n T k i j) * e ^ j <= rho ^ k * e ^ i)%R).
  { eapply Rle_trans; [|exact M]. apply (rsm_term n (fun j => cmod (cmpow n T k i j) * e ^ j)%R); [|exact Hj].
    intros l Hl. apply Rmult_le_pos; [apply cmod_nonneg|apply Rlt_le, pow_lt, Pe]. }
  assert (Q2 : (e ^ i <= 1)%R). { rewrite <- (pow1 i). apply pow_incr. lra. }
  assert (Q3 : (e ^ n <= e ^ j)%R).
  { replace n with ((n - j) + j) at 1 by lia. rewrite pow_add. assert (e ^ (n - j) <= 1)%R by (rewrite <- (pow1 (n - j)); apply pow_incr; lra). nra. }
  assert (Q4 : (0 <= rho ^ k)%R) by (apply pow_le; lra).
  apply (Rmult_le_reg_r (e ^ n)); [exact Pen|]. rewrite (Rmult_comm (/ e ^ n)), Rmult_assoc, Rinv_l by lra.
  pose proof (cmod_nonneg (cmpow n T k i j)). nra.
Qed.
Lemma pow_le_geom z c rho : (0 <= z)%R -> (0 <= rho)%R -> (forall k, (z ^ k <= c * rho ^ k)%R) -> (z <= rho)%R.
Proof.
  intros Hz Hr H. destruct (Rle_lt_dec z rho) as [L|L]; [exact L|exfalso].
  destruct Hr as [Pr|<-].
  - set (q := (z / rho)%R). assert (Q : (1 < q)%R).
    { unfold q. apply (Rmult_lt_reg_r rho); [exact Pr|]. unfold Rdiv. rewrite Rmult_assoc, Rinv_l by lra. lra. }
    assert (B : forall k, (q ^ k <= c)%R).
    { intros k. unfold q, Rdiv. rewrite Rpow_mult_distr, pow_inv by lra. pose proof (pow_lt rho k Pr). apply (Rmult_le_reg_r (rho ^ k)); [assumption|].
      rewrite Rmult_assoc, Rinv_l by lra. rewrite Rmult_1_r. apply H. }
    destruct (Pow_x_infinity q (ltac:(rewrite Rabs_pos_eq by lra; lra)) (c + 1)) as (N & HN). specialize (HN N (le_n N)).
    rewrite Rabs_pos_eq in HN by (apply pow_le; lra). specialize (B N). lra.
  - specialize (H 1). cbn [pow] in H. lra.
Qed.
(** The spectral radius is the rate of growth of the powers. *)
Lemma spectral_radius n A ev s : spectrum n A ev -> (0 <= s)%R -> (forall z, In z ev -> (cmod z <= s)%R) ->
  forall rho, (s < rho)%R -> pow_bound n A rho.
Proof.
  intros (L & V & W & T & VW & WV & E & U & D) Hs Hz rho Hr.
  apply (pow_bound_conj n T A W V); [lra|apply (conj_from n A V W T); assumption|].
  apply (upper_bound n T s rho U Hs Hr). intros i Hi. rewrite D by exact Hi. apply Hz, nth_In. rewrite L. exact Hi.
Qed.
Lemma spectral_radius_lower n A ev rho : spectrum n A ev -> (0 <= rho)%R -> pow_bound n A rho -> forall z, In z ev -> (cmod z <= rho)%R.
Proof.
  intros (L & V & W & T & VW & WV & E & U & D) Hr B z Hz. destruct (In_nth ev z zeroC Hz) as (i & Hi & Ei). rewrite L in Hi.
  assert (BT : pow_bound n T rho) by (apply (pow_bound_conj n A T V W); [lra|apply (conj_to n A V W T); assumption|exact B]).
  destruct BT as (c & Hc). apply (pow_le_geom _ c); [apply cmod_nonneg|exact Hr|]. intros k.
  specialize (Hc k i i Hi Hi). rewrite (proj2 (upper_pow n T U k) i Hi), cmod_pow, D, Ei in Hc by exact Hi. exact Hc.
Qed.
