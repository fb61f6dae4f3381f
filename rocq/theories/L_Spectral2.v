(** L_Spectral2: the eigenvalues of an ergodic chain and its rate of convergence. *)
From Verif Require Import S_Spectral L_Spectral L_Ergodic L_Simulation L_Gen3.
From Coq Require Import Reals Qreals Lra Psatz.
Close Scope Q_scope. Close Scope R_scope.
Open Scope nat_scope.

Lemma real_Qc2R x : real x = Qc2R x. Proof. reflexivity. Qed.

(** ** limits *)
Definition climit (f : nat -> cx) (l : cx) : Prop := forall eps, (0 < eps)%R -> exists N, forall k, N <= k -> (cmod (f k - l)%C < eps)%R.
Lemma climit_ext f g l : (forall k, f k = g k) -> climit f l -> climit g l.
Proof. intros E H eps He. destruct (H eps He) as (N & HN). exists N. intros k Hk. rewrite <- E. apply HN, Hk. Qed.
Lemma climit_const a : climit (fun _ => a) a.
Proof. intros eps He. exists 0. intros k _. replace (a - a)%C with zeroC by ring. rewrite cmod_0. exact He. Qed.
Lemma climit_add f g a b : climit f a -> climit g b -> climit (fun k => f k + g k)%C (a + b)%C.
Proof.
  intros H K eps He. destruct (H (eps / 2)%R ltac:(lra)) as (N & HN). destruct (K (eps / 2)%R ltac:(lra)) as (M & HM).
  exists (N + M). intros k Hk. replace (f k + g k - (a + b))%C with ((f k - a) + (g k - b))%C by ring.
  specialize (HN k ltac:(lia)). specialize (HM k ltac:(lia)). pose proof (cmod_triangle (f k - a)%C (g k - b)%C). lra.
Qed.
Lemma climit_scale c f a : climit f a -> climit (fun k => c * f k)%C (c * a)%C.
Proof.
  intros H eps He. pose proof (cmod_nonneg c) as Nc. destruct (H (eps / (cmod c + 1))%R) as (N & HN); [apply Rdiv_lt_0_compat; lra|].
  exists N. intros k Hk. specialize (HN k Hk). replace (c * f k - c * a)%C with (c * (f k - a))%C by ring. rewrite cmod_mul.
  apply (Rmult_lt_compat_r (cmod c + 1)) in HN; [|lra]. unfold Rdiv in HN. rewrite Rmult_assoc, Rinv_l, Rmult_1_r in HN by lra.
  pose proof (cmod_nonneg (f k - a)%C). nra.
Qed.
Lemma climit_sum n (f : nat -> nat -> cx) (a : nat -> cx) : (forall i, i < n -> climit (fun k => f k i) (a i)) -> climit (fun k => csum n (f k)) (csum n a).
Proof.
  induction n; intros H; cbn [csum]; [apply climit_const|]. apply climit_add; [apply IHn; intros; apply H; lia|apply H; lia].
Qed.
Lemma climit_unique f a b : climit f a -> climit f b -> a = b.
Proof.
  intros H K. destruct (cx_dec a b) as [E|N]; [exact E|exfalso].
  assert (P : (0 < cmod (a - b)%C)%R). { apply cmod_pos. intros Z. apply N. replace a with ((a - b) + b)%C by ring. rewrite Z. ring. }
  destruct (H (cmod (a - b)%C / 2)%R ltac:(lra)) as (M1 & H1). destruct (K (cmod (a - b)%C / 2)%R ltac:(lra)) as (M2 & H2).
  specialize (H1 (M1 + M2) ltac:(lia)). specialize (H2 (M1 + M2) ltac:(lia)).
  set (y := f (M1 + M2)) in *. pose proof (cmod_triangle (a - y)%C (y - b)%C) as T. rewrite (cmod_sub_sym a y) in T.
  replace (a - y + (y - b))%C with (a - b)%C in T by ring. lra.
Qed.
Lemma climit_shift f a : climit f a -> climit (fun k => f (S k)) a.
Proof. intros H eps He. destruct (H eps He) as (N & HN). exists N. intros k Hk. apply HN. lia. Qed.
Lemma cpow_limit z l : climit (cpow z) l -> (z = oneC /\ l = oneC) \/ ((cmod z < 1)%R /\ l = zeroC).
Proof.
  intros H. pose proof (climit_shift _ _ H) as H1. pose proof (climit_scale z _ _ H) as H2.
  assert (E : (z * l)%C = l) by (apply (climit_unique (fun k => cpow z (S k))); [exact H2|exact H1]).
  assert (Z : ((z - oneC) * l)%C = zeroC) by (replace ((z - oneC) * l)%C with (z * l - l)%C by ring; rewrite E; ring).
  apply cmul_eq0 in Z. destruct Z as [Z|Z].
  - left. assert (Ez : z = oneC) by (replace z with ((z - oneC) + oneC)%C by ring; rewrite Z; ring). split; [exact Ez|]. subst z.
    apply (climit_unique (cpow oneC)); [exact H|]. apply (climit_ext (fun _ => oneC)); [intros; symmetry; apply cpow_1|apply climit_const].
  - right. split; [|exact Z]. destruct (Rlt_le_dec (cmod z) 1) as [L|L]; [exact L|exfalso].
    destruct (H 1%R ltac:(lra)) as (N & HN). specialize (HN N (le_n N)). rewrite Z in HN. replace (cpow z N - zeroC)%C with (cpow z N) in HN by ring.
    rewrite cmod_pow in HN. pose proof (pow_R1_Rle (cmod z) N L). lra.
Qed.
Lemma one_of n (f : nat -> R) : (forall i, i < n -> f i = 0%R \/ f i = 1%R) -> rsm n f = 1%R ->
  exists i, i < n /\ f i = 1%R /\ forall j, j < n -> j <> i -> f j = 0%R.
Proof.
  assert (Z : forall n f, (forall i, i < n -> f i = 0%R \/ f i = 1%R) -> rsm n f = 0%R -> forall i, i < n -> f i = 0%R).
  { clear. intros n f H E i Hi. assert (f i <= rsm n f)%R by (apply rsm_term; [|exact Hi]; intros j Hj; destruct (H j Hj); lra). destruct (H i Hi); lra. }
  induction n; intros H E; [cbn in E; lra|]. cbn [rsm] in E. destruct (H n ltac:(lia)) as [Z0|Z1].
  - destruct IHn as (i & Hi & F & G); [intros; apply H; lia|lra|]. exists i. split; [lia|]. split; [exact F|]. intros j Hj N.
    destruct (Nat.eq_dec j n) as [->|]; [exact Z0|apply G; lia].
  - exists n. split; [lia|]. split; [exact Z1|]. intros j Hj N. apply (Z n f); [intros; apply H; lia|lra|lia].
Qed.

(** ** embedding of the step probabilities *)
Lemma real_0 : real 0q = 0%R. Proof. apply Qc2R_0. Qed.
Lemma real_1 : real 1q = 1%R. Proof. apply Qc2R_1. Qed.
Lemma real_mul a b : real (a * b)%Qc = (real a * real b)%R. Proof. apply Qc2R_mul. Qed.
Lemma real_add a b : real (a + b)%Qc = (real a + real b)%R. Proof. apply Qc2R_plus. Qed.
Lemma real_sub a b : real (a - b)%Qc = (real a - real b)%R.
Proof. assert (E : (a - b + b)%Qc = a) by ring. rewrite <- E at 2. rewrite real_add. lra. Qed.
Lemma real_sumn n f : real (sumn n f) = rsm n (fun i => real (f i)).
Proof. induction n; cbn [sumn rsm]; [apply real_0|rewrite real_add, IHn; reflexivity]. Qed.
Lemma real_abs a : real (Qcabs a) = Rabs (real a).
Proof.
  unfold Qcabs. destruct (Qcleb_spec 0 a) as [L|L].
  - apply Qc2R_le in L. rewrite Qc2R_0 in L. rewrite Rabs_pos_eq by exact L. reflexivity.
  - assert (E : (- a)%Qc = (0q - a)%Qc) by ring. rewrite E, real_sub, real_0. apply Qc2R_lt in L. rewrite Qc2R_0 in L.
    change (real a < 0)%R in L. rewrite Rabs_left by exact L. ring.
Qed.
Lemma kstep_cmpow n P k : ceq n (fun i j => RtoC (real (kstep n P k i j))) (cmpow n (cmat_of P) k).
Proof.
  induction k; intros i j Hi Hj; cbn [cmpow].
  - rewrite kstep_0. unfold delta, cid. destruct (Nat.eqb i j); [rewrite real_1|rewrite real_0]; reflexivity.
  - rewrite kstep_S, real_sumn, <- csum_R. apply csum_ext. intros l Hl. rewrite real_mul, RtoC_mul. rewrite <- (IHk l j Hl Hj). reflexivity.
Qed.
Lemma small_q eps : (0 < eps)%R -> exists q : Qc, (0 < q)%Qc /\ (real q < eps)%R.
Proof.
  intros He. destruct (archimed (/ eps)) as [A _]. set (z := up (/ eps)) in *. assert (Pi : (0 < / eps)%R) by (apply Rinv_0_lt_compat, He).
  assert (Pz : (0 < z)%Z) by (apply lt_IZR; lra). exists (Q2Qc (1 # Z.to_pos z)). split.
  - apply Qcltb_lt. reflexivity.
  - unfold real. rewrite (Qeq_eqR _ (1 # Z.to_pos z)%Q) by (apply Qred_correct). unfold Q2R. cbn [Qnum Qden]. rewrite Z2Pos.id by exact Pz.
    rewrite Rmult_1_l. rewrite <- (Rinv_inv eps). apply Rinv_lt_contravar; [|exact A]. apply Rmult_lt_0_compat; lra.
Qed.
Lemma tends_climit f l : tends f l -> climit (fun k => RtoC (real (f k))) (RtoC (real l)).
Proof.
  intros H eps He. destruct (small_q eps He) as (q & Pq & Lq). destruct (H q Pq) as (N & HN). exists N. intros k Hk.
  rewrite <- RtoC_sub, cmod_R, <- real_sub, <- real_abs. pose proof (Qc2R_lt _ _ (HN k Hk)) as HN'. change (real (Qcabs (f k - l)) < real q)%R in HN'. lra.
Qed.

Lemma fst_csum n f : fst (csum n f) = rsm n (fun i => fst (f i)).
Proof. induction n; cbn [csum rsm]; [reflexivity|]. rewrite <- IHn. reflexivity. Qed.

(** ** the chain minus its limit *)
Definition minus_limit (P : mat) (pi : vec) : cmat := fun i j => (cmat_of P i j - RtoC (real (vget pi j)))%C.
Section erg.
Variables (n : nat) (P : mat) (pi : vec).
Hypothesis Hn : 2 <= n.
Hypothesis St : stochastic n P.
Hypothesis Er : ergodic n P.
Hypothesis Dp : distribution n pi.
Hypothesis Sp : stationary n P pi.
Notation pc j := (RtoC (real (vget pi j))).
Lemma pi_one : csum n (fun j => pc j) = oneC.
Proof using Dp. rewrite csum_R, <- real_sumn, (proj2 (proj2 Dp)), real_1. reflexivity. Qed.
Lemma minus_pow k i j : i < n -> j < n -> cmpow n (minus_limit P pi) (S k) i j = (cmpow n (cmat_of P) (S k) i j - pc j)%C.
Proof using Hn St Dp Sp.
  revert i j. induction k; intros i j Hi Hj.
  - cbn [cmpow]. rewrite (cmm_id_r n _ i j Hi Hj), (cmm_id_r n _ i j Hi Hj). reflexivity.
  - change (cmpow n (minus_limit P pi) (S (S k)) i j) with (csum n (fun l => minus_limit P pi i l * cmpow n (minus_limit P pi) (S k) l j)%C).
    change (cmpow n (cmat_of P) (S (S k)) i j) with (csum n (fun l => cmat_of P i l * cmpow n (cmat_of P) (S k) l j)%C).
    rewrite (csum_ext n _ (fun l => cmat_of P i l * cmpow n (cmat_of P) (S k) l j - cmat_of P i l * pc j - pc l * cmpow n (cmat_of P) (S k) l j + pc l * pc j)%C).
    2: { intros l Hl. rewrite IHk by assumption. unfold minus_limit. ring. }
    rewrite csum_add, csum_sub, csum_sub, csum_mul_r, csum_mul_r, pi_one.
    assert (R1 : csum n (fun l => cmat_of P i l) = oneC).
    { unfold cmat_of. rewrite csum_R, <- real_sumn. transitivity (RtoC (real 1q)); [f_equal; f_equal; exact (proj2 (proj2 St) i Hi)|rewrite real_1; reflexivity]. }
    assert (R2 : csum n (fun l => pc l * cmpow n (cmat_of P) (S k) l j)%C = pc j).
    { rewrite (csum_ext n _ (fun l => RtoC (real (vget pi l * kstep n P (S k) l j)%Qc))).
      - rewrite csum_R, <- real_sumn, (stationary_kstep n P pi (S k) j Sp Hj). reflexivity.
      - intros l Hl. rewrite real_mul, RtoC_mul, (kstep_cmpow n P (S k) l j Hl Hj). reflexivity. }
    change (csum n (fun l => cmat_of P i l)) with (csum n (cmat_of P i)) in R1. rewrite R1, R2. ring.
Qed.
Lemma decay_pow rho : (0 <= rho)%R -> decay_bound n P pi rho <-> pow_bound n (minus_limit P pi) rho.
Proof using Hn St Dp Sp.
  intros Hr. split; intros (c & Hc).
  - exists (Rmax c 1). intros [|k] i j Hi Hj.
    + cbn [cmpow pow]. unfold cid. pose proof (Rmax_r c 1). destruct (Nat.eqb i j); [rewrite cmod_1|rewrite cmod_0]; lra.
    + rewrite minus_pow by assumption. rewrite <- (kstep_cmpow n P (S k) i j Hi Hj), <- RtoC_sub, cmod_R. eapply Rle_trans; [apply Hc; assumption|].
      apply Rmult_le_compat_r; [apply pow_le, Hr|apply Rmax_l].
  - exists (Rmax c 1). intros [|k] i j Hi Hj.
    + rewrite kstep_0. cbn [pow]. pose proof (Rmax_r c 1). rewrite <- real_sub, <- real_abs. 
      assert (B : (Qcabs (delta i j - vget pi j) <= 1)%Qc).
      { pose proof (dist_le_1 n pi j Dp Hj) as L1. pose proof (proj1 (proj2 Dp) j Hj) as L0. unfold delta. apply Qcabs_le. destruct (Nat.eqb i j); split; qclra. }
      apply Qc2R_le in B. rewrite Qc2R_1 in B. change (real (Qcabs (delta i j - vget pi j)) <= 1)%R in B. lra.
    + rewrite <- cmod_R, RtoC_sub, (kstep_cmpow n P (S k) i j Hi Hj), <- minus_pow by assumption. eapply Rle_trans; [apply Hc; assumption|].
      apply Rmult_le_compat_r; [apply pow_le, Hr|apply Rmax_l].
Qed.
(** Exactly one eigenvalue is 1, the others are smaller in absolute value; replacing the 1 by
    a 0 gives the eigenvalues of the chain minus its limit. *)
Lemma ergodic_spectrum ev : spectrum n (cmat_of P) ev ->
  exists i0, i0 < n /\ nth i0 ev zeroC = oneC /\ (forall i, i < n -> i <> i0 -> (cmod (nth i ev zeroC) < 1)%R) /\
    spectrum n (minus_limit P pi) (tab n (fun i => if Nat.eqb i i0 then zeroC else nth i ev zeroC)).
Proof using Hn St Er Dp Sp.
  intros (L & V & W & T & VW & WV & E & U & D).
  set (u := fun i => csum n (fun a => W i a)). set (w := fun j => csum n (fun b => pc b * V b j)%C).
  assert (Lim : forall i j, i < n -> j < n -> climit (fun k => cmpow n T k i j) (u i * w j)%C).
  { intros i j Hi Hj. apply (climit_ext (fun k => csum n (fun a => W i a * csum n (fun b => V b j * RtoC (real (kstep n P k a b))))%C)).
    { intros k. rewrite (conj_to n (cmat_of P) V W T VW WV E k i j Hi Hj). unfold cmm at 1. apply csum_ext. intros a Ha. f_equal. unfold cmm. apply csum_ext. intros b Hb.
      rewrite (kstep_cmpow n P k a b Ha Hb). ring. }
    replace (u i * w j)%C with (csum n (fun a => W i a * csum n (fun b => V b j * pc b))%C).
    2: { unfold u, w. rewrite <- csum_mul_r. apply csum_ext. intros a Ha. f_equal. apply csum_ext. intros; ring. }
    apply (climit_sum n (fun k a => W i a * csum n (fun b => V b j * RtoC (real (kstep n P k a b))))%C). intros a Ha. apply climit_scale.
    apply (climit_sum n (fun k b => V b j * RtoC (real (kstep n P k a b)))%C). intros b Hb. apply climit_scale.
    apply tends_climit. apply (ergodic_tends n P pi); assumption. }
  assert (Dg : forall i, i < n -> (T i i = oneC /\ (u i * w i)%C = oneC) \/ ((cmod (T i i) < 1)%R /\ (u i * w i)%C = zeroC)).
  { intros i Hi. apply cpow_limit. apply (climit_ext (fun k => cmpow n T k i i)); [intros k; apply (proj2 (upper_pow n T U k) i Hi)|apply Lim; assumption]. }
  assert (Low : forall i j, i < n -> j < i -> (u i * w j)%C = zeroC).
  { intros i j Hi Hj. apply (climit_unique (fun k => cmpow n T k i j)); [apply Lim; lia|]. apply (climit_ext (fun _ => zeroC)); [|apply climit_const].
    intros k. symmetry. apply (proj1 (upper_pow n T U k)); assumption. }
  assert (Tr : csum n (fun i => u i * w i)%C = oneC).
  { unfold u, w. rewrite (csum_ext n _ (fun i => csum n (fun a => csum n (fun b => pc b * (V b i * W i a)))%C)).
    2: { intros i Hi. rewrite <- csum_mul_r. apply csum_ext. intros a Ha. rewrite <- csum_mul_l. apply csum_ext. intros; ring. }
    rewrite csum_swap. rewrite (csum_ext n _ (fun a => pc a)); [apply pi_one|]. intros a Ha. rewrite csum_swap.
    rewrite (csum_ext n _ (fun b => pc b * cid b a)%C).
    - rewrite (csum_single n _ a Ha); [unfold cid; rewrite Nat.eqb_refl; ring|]. intros b Hb N. unfold cid. destruct (Nat.eqb_spec b a); [congruence|ring].
    - intros b Hb. rewrite csum_mul_l. f_equal. apply (VW b a Hb Ha). }
  destruct (one_of n (fun i => fst (u i * w i)%C)) as (i0 & Hi0 & F & G).
  { intros i Hi. destruct (Dg i Hi) as [[_ X]|[_ X]]; rewrite X; [right|left]; reflexivity. }
  { apply (f_equal fst) in Tr. change (fst oneC) with 1%R in Tr. rewrite <- Tr. symmetry. apply (fst_csum n (fun i => u i * w i)%C). }
  assert (T0 : T i0 i0 = oneC /\ (u i0 * w i0)%C = oneC). { destruct (Dg i0 Hi0) as [X|[_ X]]; [exact X|]. rewrite X in F. cbn in F. lra. }
  assert (T1 : forall i, i < n -> i <> i0 -> (cmod (T i i) < 1)%R /\ (u i * w i)%C = zeroC).
  { intros i Hi N. destruct (Dg i Hi) as [[_ X]|X]; [|exact X]. specialize (G i Hi N). rewrite X in G. cbn in G. lra. }
  exists i0. split; [exact Hi0|]. rewrite <- D by exact Hi0. split; [exact (proj1 T0)|].
  split; [intros i Hi N; rewrite <- D by exact Hi; apply T1; assumption|].
  split; [apply tab_length|]. exists V, W, (fun i j => T i j - u i * w j)%C. split; [exact VW|]. split; [exact WV|]. split; [|split].
  - intros i j Hi Hj. unfold cmm. rewrite (csum_ext n _ (fun k => cmat_of P i k * V k j - pc k * V k j)%C) by (intros; unfold minus_limit; ring).
    rewrite (csum_ext n (fun k => V i k * (T k j - u k * w j))%C (fun k => V i k * T k j - (V i k * u k) * w j)%C) by (intros; ring).
    rewrite csum_sub, csum_sub. pose proof (E i j Hi Hj) as Eij. unfold cmm in Eij. rewrite Eij. f_equal. rewrite csum_mul_r. 
    assert (VU : csum n (fun k => V i k * u k)%C = oneC).
    { unfold u. rewrite (csum_ext n _ (fun k => csum n (fun a => V i k * W k a)%C)) by (intros; rewrite csum_mul_l; reflexivity).
      rewrite csum_swap. rewrite (csum_ext n _ (fun a => cid i a)) by (intros a Ha; apply (VW i a Hi Ha)).
      rewrite (csum_single n _ i Hi); [unfold cid; rewrite Nat.eqb_refl; reflexivity|]. intros a Ha N. unfold cid. destruct (Nat.eqb_spec i a); [congruence|reflexivity]. }
    rewrite VU. unfold w. ring.
  - intros i j Hi Hj. rewrite U, Low by assumption. ring.
  - intros i Hi. rewrite tab_nth by exact Hi. destruct (Nat.eqb_spec i i0) as [->|N].
    + rewrite (proj1 T0), (proj2 T0). ring.
    + rewrite (proj2 (T1 i Hi N)), D by exact Hi. ring.
Qed.
End erg.
