(** L_Sens: the sensitivity matrix is the derivative of the stationary distribution. *)
From Verif Require Export S_Sens L_Visits.
Open Scope nat_scope.

Lemma pos_or_0 a : (0 <= a)%Qc -> (0 < a)%Qc \/ a = 0q.
Proof. intros H. destruct (Qcle_lt_or_eq _ _ H); [left; assumption|right; symmetry; assumption]. Qed.
Lemma abs_mul a b : Qcabs (a * b)%Qc = (Qcabs a * Qcabs b)%Qc.
Proof.
  unfold Qcabs. destruct (Qcleb_spec 0 a) as [Ha|Ha], (Qcleb_spec 0 b) as [Hb|Hb], (Qcleb_spec 0 (a * b)%Qc) as [Hab|Hab]; try ring.
  - exfalso. pose proof (Qc_mul_nonneg a b Ha Hb). qclra.
  - destruct (pos_or_0 a Ha) as [Hp| ->]; [|ring]. exfalso. pose proof (Qc_mul_pos a (- b)%Qc Hp ltac:(qclra)) as H3.
    replace (a * - b)%Qc with (- (a * b))%Qc in H3 by ring. qclra.
  - destruct (pos_or_0 b Hb) as [Hp| ->]; [|ring]. exfalso. pose proof (Qc_mul_pos (- a)%Qc b ltac:(qclra) Hp) as H3.
    replace (- a * b)%Qc with (- (a * b))%Qc in H3 by ring. qclra.
  - exfalso. pose proof (Qc_mul_pos (- a)%Qc (- b)%Qc ltac:(qclra) ltac:(qclra)) as H2. replace (- a * - b)%Qc with (a * b)%Qc in H2 by ring. qclra.
Qed.
Lemma abs_plus a b : (Qcabs (a + b) <= Qcabs a + Qcabs b)%Qc.
Proof. unfold Qcabs. destruct (Qcleb_spec 0 a), (Qcleb_spec 0 b), (Qcleb_spec 0 (a + b)%Qc); qclra. Qed.
Lemma abs_sumn n f : (Qcabs (sumn n f) <= sumn n (fun i => Qcabs (f i)))%Qc.
Proof.
  induction n; [cbn; apply Qcleb_le; reflexivity|]. cbn [sumn].
  pose proof (abs_plus (sumn n f) (f n)). qclra.
Qed.

(** A function whose average over the next state is itself is constant. *)
Lemma harmonic_const n P (x : nat -> Qc) : 0 < n -> stochastic n P -> irreducible n (edge P) ->
  (forall i, i < n -> sumn n (fun j => mget P i j * x j)%Qc = x i) -> forall i, i < n -> x i = x 0.
Proof.
  intros Hn (_ & Pos & Row) Irr H i Hi.
  pose proof (maxp_zero n (mget P) (fun i => negb (Nat.eqb i 0)) Pos ltac:(intros a Ha; change (sumn n (fun j => mget P a j) <= 1)%Qc; rewrite (Row a Ha); apply Qcle_refl)
    ltac:(intros a Ha; exists 0; split; [reflexivity|apply Irr; assumption]) (fun i => x i - x 0%nat)%Qc) as M.
  cbv beta in M. specialize (M ltac:(intros a Ha E; apply negb_false_iff, Nat.eqb_eq in E; subst a; ring)).
  assert (Z : (x i - x 0%nat)%Qc = 0q).
  { apply M; [|exact Hi]. intros a Ha _.
    rewrite (sumn_ext n _ (fun j => mget P a j * x j - mget P a j * x 0%nat)%Qc) by (intros; ring).
    rewrite sumn_minus, (sumn_mul_r n (x 0) (fun j => mget P a j)), (Row a Ha), (H a Ha). ring. }
  qclra.
Qed.
(** The equation P phi - phi = e_s - pi_s has a solution. *)
Lemma poisson_ex n P pi s : 0 < n -> stochastic n P -> irreducible n (edge P) -> distribution n pi -> stationary n P pi -> s < n ->
  exists phi, length phi = n /\ forall i, i < n -> (sumn n (fun j => mget P i j * vget phi j) - vget phi i = delta s i - vget pi s)%Qc.
Proof.
  intros Hn St Irr (Lpi & Ppi & Spi) [_ Spi2] Hs. pose proof St as (W & Pos & Row).
  set (A := mk n n (fun i j => mget P i j - delta i j + vget pi j)%Qc).
  assert (AS : forall (x : nat -> Qc) i, i < n -> sumn n (fun j => mget A i j * x j)%Qc = (sumn n (fun j => mget P i j * x j) - x i + sumn n (fun j => vget pi j * x j))%Qc).
  { intros x i Hi. rewrite (sumn_ext n _ (fun j => mget P i j * x j - delta i j * x j + vget pi j * x j)%Qc).
    - rewrite sumn_plus, sumn_minus, sumn_delta_l by exact Hi. reflexivity.
    - intros j Hj. unfold A. rewrite mget_mk by assumption. ring. }
  assert (PP : forall x : nat -> Qc, sumn n (fun i => vget pi i * sumn n (fun j => mget P i j * x j))%Qc = sumn n (fun j => vget pi j * x j)%Qc).
  { intros x. rewrite (sumn_ext n _ (fun i => sumn n (fun j => vget pi i * mget P i j * x j))%Qc) by (intros; rewrite <- sumn_mul_l; apply sumn_ext; intros; ring).
    rewrite sumn_swap. apply sumn_ext. intros j Hj. rewrite sumn_mul_r, (Spi2 j Hj). reflexivity. }
  assert (PA : forall x : nat -> Qc, sumn n (fun i => vget pi i * sumn n (fun j => mget A i j * x j))%Qc = sumn n (fun j => vget pi j * x j)%Qc).
  { intros x. rewrite (sumn_ext n _ (fun i => vget pi i * sumn n (fun j => mget P i j * x j) - vget pi i * x i + vget pi i * sumn n (fun j => vget pi j * x j))%Qc) by (intros i Hi; rewrite AS by exact Hi; ring).
    rewrite sumn_plus, sumn_minus, PP, sumn_mul_r. rewrite Spi. ring. }
  assert (NS : nonsingular n A).
  { intros z Hz.
    assert (P0 : sumn n (fun j => vget pi j * z j)%Qc = 0q). { rewrite <- PA. apply sumn_0. intros i Hi. rewrite (Hz i Hi). ring. }
    assert (C : forall i, i < n -> z i = z 0).
    { apply (harmonic_const n P z Hn St Irr). intros i Hi. specialize (Hz i Hi). rewrite AS, P0 in Hz by exact Hi. qclra. }
    intros j Hj. rewrite (C j Hj). rewrite (sumn_ext n _ (fun j => vget pi j * z 0%nat)%Qc) in P0 by (intros a Ha; rewrite (C a Ha); reflexivity).
    rewrite sumn_mul_r, Spi in P0. rewrite <- P0. ring. }
  destruct (solve_vec_complete n A (tab n (fun i => delta s i - vget pi s)%Qc) Hn (wf_mk _ _ _) (tab_length _ _) NS) as (phi & E).
  destruct (solve_vec_spec n A _ phi Hn (wf_mk _ _ _) (tab_length _ _) E) as (L & _ & Eq).
  exists phi. split; [exact L|].
  assert (P0 : sumn n (fun j => vget pi j * vget phi j)%Qc = 0q).
  { rewrite <- PA. rewrite (sumn_ext n _ (fun i => delta s i * vget pi i - vget pi i * vget pi s)%Qc).
    - rewrite sumn_minus, sumn_delta_l, sumn_mul_r, Spi by exact Hs. ring.
    - intros i Hi. rewrite (Eq i Hi), vget_tab by exact Hi. ring. }
  intros i Hi. specialize (Eq i Hi). rewrite AS, P0, vget_tab in Eq by exact Hi. qclra.
Qed.
(** The change of the stationary distribution under a change of the transition matrix. *)
Lemma perturb n P P' (phi : nat -> Qc) c s w : s < n ->
  (forall i, i < n -> (sumn n (fun j => mget P i j * phi j) - phi i = delta s i - c)%Qc) ->
  stationary n P' w -> sumn n (vget w) = 1q ->
  (vget w s - c = - sumn n (fun i => vget w i * sumn n (fun j => (mget P' i j - mget P i j) * phi j)))%Qc.
Proof.
  intros Hs H [_ Sw] S1.
  assert (E : (sumn n (fun i => vget w i * (sumn n (fun j => mget P i j * phi j) - phi i)) = vget w s - c)%Qc).
  { rewrite (sumn_ext n _ (fun i => delta s i * vget w i - vget w i * c)%Qc) by (intros i Hi; rewrite (H i Hi); ring).
    rewrite sumn_minus, sumn_delta_l, sumn_mul_r, S1 by exact Hs. ring. }
  rewrite <- E.
  rewrite (sumn_ext n (fun i => vget w i * sumn n (fun j => (mget P' i j - mget P i j) * phi j))%Qc
    (fun i => vget w i * sumn n (fun j => mget P' i j * phi j) - vget w i * sumn n (fun j => mget P i j * phi j))%Qc).
  - rewrite (sumn_ext n (fun i => vget w i * (sumn n (fun j => mget P i j * phi j) - phi i))%Qc (fun i => vget w i * sumn n (fun j => mget P i j * phi j) - vget w i * phi i)%Qc) by (intros; ring).
    rewrite !sumn_minus.
    replace (sumn n (fun i => vget w i * sumn n (fun j => mget P' i j * phi j)))%Qc with (sumn n (fun i => vget w i * phi i)%Qc); [ring|].
    rewrite (sumn_ext n (fun i => vget w i * sumn n (fun j => mget P' i j * phi j))%Qc (fun i => sumn n (fun j => vget w i * mget P' i j * phi j))%Qc) by (intros; rewrite <- sumn_mul_l; apply sumn_ext; intros; ring).
    rewrite sumn_swap. apply sumn_ext. intros j Hj. rewrite sumn_mul_r, (Sw j Hj). reflexivity.
  - intros i Hi. rewrite (sumn_ext n _ (fun j => mget P' i j * phi j - mget P i j * phi j)%Qc) by (intros; ring). rewrite sumn_minus. ring.
Qed.

Section SENS.
Variables (n : nat) (P : mat) (pi : vec).
Hypothesis Hn : 0 < n.
Hypothesis St : stochastic n P.
Hypothesis Irr : irreducible n (edge P).
Hypothesis Dpi : distribution n pi.
Hypothesis Spi : stationary n P pi.
Hypothesis Ppi : forall i, i < n -> (0 < vget pi i)%Qc.

Lemma perturbed_get t E i j : wf n n E -> i < n -> j < n -> (mget (madd P (mscale t E)) i j - mget P i j = t * mget E i j)%Qc.
Proof.
  intros W Hi Hj. rewrite (mget_madd n n) by (assumption || apply St). rewrite (mget_mscale n n) by assumption. ring.
Qed.
(** Under P + t E the stationary distribution moves by at most C |t|. *)
Lemma pi_lipschitz E : wf n n E -> exists C, (0 <= C)%Qc /\
  forall t w, distribution n w -> stationary n (madd P (mscale t E)) w -> forall i, i < n -> (Qcabs (vget w i - vget pi i) <= Qcabs t * C)%Qc.
Proof.
  intros WE.
  assert (One : forall s, s < n -> exists C, (0 <= C)%Qc /\ forall t w, distribution n w -> stationary n (madd P (mscale t E)) w -> (Qcabs (vget w s - vget pi s) <= Qcabs t * C)%Qc).
  { intros s Hs. destruct (poisson_ex n P pi s Hn St Irr Dpi Spi Hs) as (phi & _ & Eq).
    exists (sumn n (fun i => Qcabs (sumn n (fun j => mget E i j * vget phi j))))%Qc. split.
    - apply sumn_nonneg. intros. apply Qcabs_nonneg.
    - intros t w (Lw & Pw & Sw) Stw. rewrite (perturb n P (madd P (mscale t E)) (vget phi) (vget pi s) s w Hs Eq Stw Sw).
      replace (- sumn n _)%Qc with ((- t) * sumn n (fun i => vget w i * sumn n (fun j => mget E i j * vget phi j)))%Qc.
      + rewrite abs_mul. replace (Qcabs (- t)) with (Qcabs t) by (unfold Qcabs; destruct (Qcleb_spec 0 t), (Qcleb_spec 0 (- t)); try ring; qclra).
        pose proof (abs_sumn n (fun i => vget w i * sumn n (fun j => mget E i j * vget phi j))%Qc) as A1.
        assert (A2 : (sumn n (fun i => Qcabs (vget w i * sumn n (fun j => mget E i j * vget phi j))) <= sumn n (fun i => Qcabs (sumn n (fun j => mget E i j * vget phi j))))%Qc).
        { apply sumn_le. intros i Hi. rewrite abs_mul, (Qcabs_eq_nonneg (vget w i)) by (apply Pw; exact Hi).
          assert (L1 : (vget w i <= 1)%Qc) by (rewrite <- Sw; apply sumn_term_le; [exact Hi|exact Pw]).
          pose proof (Qcabs_nonneg (sumn n (fun j => mget E i j * vget phi j)%Qc)) as A3.
          rewrite <- (Qcmult_1_l (Qcabs (sumn _ _))) at 2. apply Qcmult_le_compat_r; assumption. }
        rewrite (Qcmult_comm (Qcabs t)), (Qcmult_comm (Qcabs t)). apply Qcmult_le_compat_r; [|apply Qcabs_nonneg]. eapply Qcle_trans; eassumption.
      + rewrite (sumn_ext n (fun i => vget w i * sumn n (fun j => (mget (madd P (mscale t E)) i j - mget P i j) * vget phi j))%Qc (fun i => t * (vget w i * sumn n (fun j => mget E i j * vget phi j)))%Qc).
        * rewrite sumn_mul_l. ring.
        * intros i Hi. rewrite (sumn_ext n _ (fun j => t * (mget E i j * vget phi j))%Qc) by (intros j Hj; rewrite perturbed_get by assumption; ring).
          rewrite sumn_mul_l. ring. }
  assert (All : forall k, k <= n -> exists C, (0 <= C)%Qc /\ forall t w, distribution n w -> stationary n (madd P (mscale t E)) w -> forall i, i < k -> (Qcabs (vget w i - vget pi i) <= Qcabs t * C)%Qc).
  { induction k as [|k IH]; intros Hk.
    - exists 0q. split; [apply Qcle_refl|]. intros; lia.
    - destruct (IH ltac:(lia)) as (C1 & C1p & H1). destruct (One k ltac:(lia)) as (C2 & C2p & H2).
      exists (C1 + C2)%Qc. split; [qclra|]. intros t w Dw Sw i Hi. pose proof (Qcabs_nonneg t) as Tp.
      pose proof (Qc_mul_nonneg _ _ Tp C1p) as M1. pose proof (Qc_mul_nonneg _ _ Tp C2p) as M2.
      rewrite Qcmult_plus_distr_r. destruct (Nat.eq_dec i k) as [->|Ne].
      + specialize (H2 t w Dw Sw). qclra.
      + specialize (H1 t w Dw Sw i ltac:(lia)). qclra. }
  exact (All n (le_n n)).
Qed.
Variables (s : nat) (phi : nat -> Qc).
Hypothesis Hs : s < n.
Hypothesis Eq : forall i, i < n -> (sumn n (fun j => mget P i j * phi j) - phi i = delta s i - vget pi s)%Qc.
Let mean := sumn n (fun j => phi j * vget pi j)%Qc.
Definition sens_m : mat := mk n n (fun i j => - (vget pi i * phi j) + mean * (vget pi i * 1))%Qc.
Lemma sens_sum (e : nat -> Qc) i : i < n -> sumn n e = 0q -> sumn n (fun j => mget sens_m i j * e j)%Qc = (- (vget pi i * sumn n (fun j => e j * phi j)))%Qc.
Proof.
  intros Hi He. rewrite (sumn_ext n _ (fun j => (mean * vget pi i) * e j - vget pi i * (e j * phi j))%Qc).
  - rewrite sumn_minus, !sumn_mul_l, He. ring.
  - intros j Hj. unfold sens_m. rewrite mget_mk by assumption. ring.
Qed.
Lemma sens_exact P' w : (forall i, i < n -> sumn n (fun j => mget P' i j) = 1q) -> stationary n P' w -> sumn n (vget w) = 1q ->
  (vget w s - vget pi s = sumn n (fun i => sumn n (fun j => vget w i / vget pi i * (mget sens_m i j * (mget P' i j - mget P i j)))))%Qc.
Proof.
  intros R' Sw S1. rewrite (perturb n P P' phi (vget pi s) s w Hs Eq Sw S1).
  rewrite (sumn_ext n (fun i => sumn n (fun j => vget w i / vget pi i * (mget sens_m i j * (mget P' i j - mget P i j))))%Qc
    (fun i => (- 1q) * (vget w i * sumn n (fun j => (mget P' i j - mget P i j) * phi j)))%Qc).
  - rewrite sumn_mul_l. ring.
  - intros i Hi. rewrite sumn_mul_l. rewrite (sens_sum (fun j => mget P' i j - mget P i j)%Qc i Hi).
    + field. apply Qc_lt_neq, Ppi, Hi.
    + rewrite (sumn_minus n (fun j => mget P' i j) (fun j => mget P i j)), (R' i Hi). destruct St as (_ & _ & Row). rewrite (Row i Hi). ring.
Qed.
Lemma sens_derivative E : row_balanced n E ->
  pi_derivative n P E s (vget pi s) (sumn n (fun i => sumn n (fun j => mget sens_m i j * mget E i j)))%Qc.
Proof.
  intros (WE & RE) eps He. destruct (pi_lipschitz E WE) as (C & Cp & HC).
  set (r := fun i : nat => sumn n (fun j => mget sens_m i j * mget E i j)%Qc).
  set (K := sumn n (fun i => Qcabs (r i) / vget pi i)%Qc).
  assert (Kp : (0 <= K)%Qc) by (apply sumn_nonneg; intros; apply Qc_div_nonneg; [apply Qcabs_nonneg|apply Ppi; assumption]).
  pose proof (Qc_mul_nonneg C K Cp Kp) as CK. assert (B : (0 < C * K + 1)%Qc) by qclra.
  exists (eps / (C * K + 1))%Qc. split; [apply Qc_div_pos; assumption|]. intros t w Nt Ht Dw Sw.
  pose proof Dw as (Lw & Pw & S1).
  assert (Rt : forall i, i < n -> sumn n (fun j => mget (madd P (mscale t E)) i j) = 1q).
  { intros i Hi. rewrite (sumn_ext n _ (fun j => mget P i j + t * mget E i j)%Qc).
    - rewrite (sumn_plus n (fun j => mget P i j) (fun j => t * mget E i j)%Qc), (sumn_mul_l n t (fun j => mget E i j)), (RE i Hi). destruct St as (_ & _ & Row). rewrite (Row i Hi). ring.
    - intros j Hj. pose proof (perturbed_get t E i j WE Hi Hj) as G. rewrite <- G. ring. }
  rewrite (sens_exact _ w Rt Sw S1).
  replace (sumn n (fun i => sumn n (fun j => vget w i / vget pi i * (mget sens_m i j * (mget (madd P (mscale t E)) i j - mget P i j)))))%Qc
    with (t * sumn n (fun i => vget w i / vget pi i * r i))%Qc.
  2:{ rewrite <- sumn_mul_l. apply sumn_ext. intros i Hi. unfold r. rewrite <- !sumn_mul_l. apply sumn_ext. intros j Hj. rewrite perturbed_get by assumption. ring. }
  replace (t * sumn n (fun i => vget w i / vget pi i * r i) / t - sumn n r)%Qc with (sumn n (fun i => (vget w i - vget pi i) * (r i / vget pi i)))%Qc.
  2:{ replace (t * sumn n (fun i => vget w i / vget pi i * r i) / t)%Qc with (sumn n (fun i => vget w i / vget pi i * r i))%Qc by (field; exact Nt).
      rewrite <- sumn_minus. apply sumn_ext. intros i Hi. field. apply Qc_lt_neq, Ppi, Hi. }
  assert (A : (Qcabs (sumn n (fun i => (vget w i - vget pi i) * (r i / vget pi i))) <= Qcabs t * C * K)%Qc).
  { eapply Qcle_trans; [apply abs_sumn|]. unfold K. rewrite <- sumn_mul_l. apply sumn_le. intros i Hi. rewrite abs_mul.
    assert (Rp : Qcabs (r i / vget pi i)%Qc = (Qcabs (r i) / vget pi i)%Qc).
    { unfold Qcdiv. rewrite abs_mul. f_equal. apply Qcabs_eq_nonneg. apply Qclt_le_weak, Qc_inv_pos, Ppi, Hi. }
    rewrite Rp. apply Qcmult_le_compat_r; [apply (HC t w Dw Sw i Hi)|]. apply Qc_div_nonneg; [apply Qcabs_nonneg|apply Ppi; exact Hi]. }
  eapply Qcle_lt_trans; [exact A|].
  assert (T1 : (Qcabs t * (C * K + 1) < eps)%Qc).
  { rewrite <- (Qc_div_mul eps (C * K + 1)) by (apply Qc_lt_neq; exact B). apply Qcmult_lt_compat_r; assumption. }
  pose proof (Qcabs_nonneg t) as Tp. replace (Qcabs t * C * K)%Qc with (Qcabs t * (C * K + 1) - Qcabs t)%Qc by ring. qclra.
Qed.
End SENS.

Lemma firstn_vget k x i : i < k -> vget (firstn k x) i = vget x i.
Proof. unfold vget. revert k i. induction x as [|a x IH]; intros [|k] [|i] H; cbn; try reflexivity; try lia. apply IH. lia. Qed.

Lemma sensitivity_spec n lstsq m s : env_ok n m -> lstsq_ok lstsq -> irreducible n (edge (en_p m)) -> s < n ->
  exists pi S, distribution n pi /\ stationary n (en_p m) pi /\ sensitivity lstsq m s = Ok (Some S) /\ wf n n S /\
    (forall P' w, (forall i, i < n -> sumn n (fun j => mget P' i j) = 1q) -> stationary n P' w -> sumn n (vget w) = 1q ->
      (vget w s - vget pi s = sumn n (fun i => sumn n (fun j => vget w i / vget pi i * (mget S i j * (mget P' i j - mget (en_p m) i j)))))%Qc) /\
    (forall E, row_balanced n E -> pi_derivative n (en_p m) E s (vget pi s) (sumn n (fun i => sumn n (fun j => mget S i j * mget E i j)))%Qc).
Proof.
  intros Hm HL Irr Hs. destruct (ergodic_pi n m Hm Irr) as (pi & Epi & Dpi & Spi & Ppi & _).
  pose proof Hm as (Hn & St & _ & _ & HO). assert (Hn0 : 0 < n) by lia.
  pose proof (env_size n m Hm) as Sz. pose proof Dpi as (Lpi & _ & Sum1).
  set (a := mk n (n + 1) (fun i j => if Nat.ltb j n then (mget (en_p m) i j - delta i j)%Qc else 1q)).
  set (b := tab n (fun i => delta s i)).
  assert (AS : forall (x : nat -> Qc) i, i < n -> sumn (n + 1) (fun j => mget a i j * x j)%Qc = (sumn n (fun j => mget (en_p m) i j * x j) - x i + x n)%Qc).
  { intros x i Hi. rewrite (sumn_split n 1). cbn [sumn]. rewrite Nat.add_0_r.
    replace (mget a i n) with 1q by (unfold a; rewrite mget_mk by lia; rewrite Nat.ltb_irrefl; reflexivity).
    rewrite (sumn_ext n _ (fun j => mget (en_p m) i j * x j - delta i j * x j)%Qc).
    - rewrite sumn_minus, sumn_delta_l by exact Hi. ring.
    - intros j Hj. unfold a. rewrite mget_mk by lia. destruct (Nat.ltb_spec j n); [ring|lia]. }
  assert (Wa : wf n (n + 1) a) by apply wf_mk.
  destruct (HL n (n + 1) a b Hn0 Wa (tab_length _ _)) as (x & Ex & Lx & Mx).
  { destruct (poisson_ex n (en_p m) pi s Hn0 St Irr Dpi Spi Hs) as (y & Ly & Hy).
    exists (y ++ [vget pi s]). split; [rewrite app_length, Ly; reflexivity|].
    apply (vec_ext _ _ n); [rewrite (length_mvmul n (n + 1)) by exact Wa; reflexivity|apply tab_length|].
    intros i Hi. rewrite (vget_mvmul n (n + 1)), AS by assumption. unfold b. rewrite vget_tab by exact Hi.
    replace (vget (y ++ [vget pi s]) n) with (vget pi s) by (unfold vget at 2; rewrite app_nth2, Ly, Nat.sub_diag by lia; reflexivity).
    assert (V : forall j, j < n -> vget (y ++ [vget pi s]) j = vget y j) by (intros j Hj; unfold vget; rewrite app_nth1 by lia; reflexivity).
    rewrite (V i Hi). rewrite (sumn_ext n _ (fun j => mget (en_p m) i j * vget y j)%Qc) by (intros j Hj; rewrite (V j Hj); reflexivity).
    rewrite (Hy i Hi). ring. }
  assert (Ex0 : forall i, i < n -> (sumn n (fun j => mget (en_p m) i j * vget x j) - vget x i = delta s i - vget x n)%Qc).
  { intros i Hi. pose proof (vget_mvmul n (n + 1) x a i Wa Hi) as G. rewrite Mx, AS in G by exact Hi. unfold b in G. rewrite vget_tab in G by exact Hi. rewrite G. ring. }
  assert (C : vget x n = vget pi s).
  { pose proof (perturb n (en_p m) (en_p m) (vget x) (vget x n) s pi Hs Ex0 Spi Sum1) as G.
    rewrite (sumn_0 n) in G by (intros i Hi; rewrite (sumn_0 n) by (intros; ring); ring). qclra. }
  assert (Eq : forall i, i < n -> (sumn n (fun j => mget (en_p m) i j * vget x j) - vget x i = delta s i - vget pi s)%Qc) by (intros i Hi; rewrite (Ex0 i Hi), C; reflexivity).
  exists pi, (sens_m n pi (vget x)). split; [exact Dpi|]. split; [exact Spi|]. split; [|split; [apply wf_mk|split]].
  - unfold sensitivity. rewrite (proj2 (is_irreducible_spec n (en_p m) (en_comps m) Hn0 (proj1 St) (proj1 HO)) Irr). cbn [negb]. rewrite Epi. cbn [bind]. rewrite Sz.
    fold a. fold b. rewrite Ex. cbn [bind]. do 2 f_equal. apply mk_ext. intros i j Hi Hj.
    unfold vdot. rewrite firstn_length, Lx, Nat.min_l by lia. rewrite !firstn_vget by assumption.
    do 2 f_equal. apply sumn_ext. intros k Hk. rewrite firstn_vget by assumption. reflexivity.
  - intros P' w R' Sw S1. apply (sens_exact n (en_p m) pi St Ppi s (vget x) Hs Eq P' w R' Sw S1).
  - intros E HE. apply (sens_derivative n (en_p m) pi Hn0 St Irr Dpi Spi Ppi s (vget x) Hs Eq E HE).
Qed.
Lemma sensitivity_none n lstsq m s : env_ok n m -> ~ irreducible n (edge (en_p m)) -> sensitivity lstsq m s = Ok None.
Proof.
  intros (Hn & St & _ & _ & HO) NI. unfold sensitivity. destruct (is_irreducible (en_comps m)) eqn:E; [|reflexivity].
  exfalso. apply NI. apply (is_irreducible_spec n (en_p m) (en_comps m)); [lia|apply St|apply HO|exact E].
Qed.
