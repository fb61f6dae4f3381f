(** L_Ergodic: ergodic chains are the regular ones and converge to the stationary
    distribution. *)
From Verif Require Export L_Limit3.
Open Scope nat_scope.

(** ** Closed walks of period one have all large lengths *)
Section SEMI.
Variable S0 : nat -> Prop.
Hypothesis Z0 : S0 0.
Hypothesis Add : forall a b, S0 a -> S0 b -> S0 (a + b).
Lemma semi_mul q a : S0 a -> S0 (q * a).
Proof. intros H. induction q as [|q IH]; [exact Z0|]. cbn. apply Add; assumption. Qed.
Hypothesis G : forall e, (forall k, S0 k -> (e | Z.of_nat k)%Z) -> (e | 1)%Z.
Lemma not_div_ex d : (1 < d)%nat -> ~ ~ exists k, S0 k /\ k mod d <> 0.
Proof.
  intros Hd H. assert (D : (Z.of_nat d | 1)%Z).
  { apply G. intros k Hk. destruct (Nat.eq_dec (k mod d) 0) as [E|E]; [|exfalso; apply H; exists k; auto].
    exists (Z.of_nat (k / d)). rewrite <- Nat2Z.inj_mul. f_equal. pose proof (Nat.div_mod k d ltac:(lia)). nia. }
  apply Z.divide_1_r_nonneg in D; lia.
Qed.
Lemma semi_diff : forall d, 1 <= d -> forall a, S0 a -> S0 (a + d) -> ~ ~ exists a, S0 a /\ S0 (a + 1).
Proof.
  intros d. induction d as [d IH] using (well_founded_induction lt_wf). intros Hd a Ha Hb F.
  destruct (Nat.eq_dec d 1) as [->|N]; [apply F; exists a; auto|].
  apply (not_div_ex d); [lia|]. intros (k & Hk & Nk).
  pose proof (Nat.div_mod k d ltac:(lia)) as E. pose proof (Nat.mod_upper_bound k d ltac:(lia)) as L.
  apply (IH (d - k mod d) ltac:(lia) ltac:(lia) ((k / d + 1) * a + k)); [apply Add; [apply semi_mul; exact Ha|exact Hk]| |exact F].
  replace ((k / d + 1) * a + k + (d - k mod d)) with ((k / d + 1) * (a + d)) by nia. apply semi_mul. exact Hb.
Qed.
Lemma semi_one : ~ ~ exists a, S0 a /\ S0 (a + 1).
Proof.
  intros F. assert (H : ~ ~ exists k, S0 k /\ 1 <= k).
  { intros H. assert (D : (0 | 1)%Z).
    { apply G. intros k Hk. destruct k as [|k]; [exists 0%Z; reflexivity|]. exfalso. apply H. exists (S k). split; [exact Hk|lia]. }
    apply Z.divide_0_l in D. discriminate. }
  apply H. intros (k & Hk & L). exact (semi_diff k L 0 Z0 Hk F).
Qed.
Lemma semi_all a : S0 a -> S0 (a + 1) -> forall m, a * a <= m -> S0 m.
Proof.
  intros Ha Hb m Hm. destruct (Nat.eq_dec a 0) as [->|N].
  - replace m with (m * (0 + 1)) by lia. apply semi_mul. exact Hb.
  - pose proof (Nat.div_mod m a N) as E. pose proof (Nat.mod_upper_bound m a N) as L.
    assert (Q : a <= m / a) by (apply Nat.div_le_lower_bound; lia).
    replace m with ((m / a - m mod a) * a + (m mod a) * (a + 1)) by nia. apply Add; apply semi_mul; assumption.
Qed.
End SEMI.

Lemma bounded_choice (n : nat) (R : nat -> nat -> Prop) : (forall i, i < n -> exists a, R i a) -> exists B, forall i, i < n -> exists a, a <= B /\ R i a.
Proof.
  induction n as [|n IH]; intros H; [exists 0; lia|]. destruct IH as (B & HB); [intros i Hi; apply H; lia|]. destruct (H n ltac:(lia)) as (a & Ha).
  exists (Nat.max B a). intros i Hi. destruct (Nat.eq_dec i n) as [->|Ne]; [exists a; split; [lia|exact Ha]|].
  destruct (HB i ltac:(lia)) as (c & Lc & Hc). exists c. split; [lia|exact Hc].
Qed.
Lemma aperiodic_full n E x : x < n -> irreducible n E -> period_of n E x 1 -> ~ ~ exists m, full n E m.
Proof.
  intros Hx I (_ & _ & G) F.
  apply (semi_one (fun k => walk n E k x x) (walk_nil n E x Hx) (fun a b => walk_app n E a b x x x) G).
  intros (a & Ha & Hb). apply F.
  pose proof (semi_all (fun k => walk n E k x x) (walk_nil n E x Hx) (fun a b => walk_app n E a b x x x) a Ha Hb) as All.
  destruct (bounded_choice n (fun i k => walk n E k i x)) as (B & HB); [intros i Hi; exact (I i x Hi Hx)|].
  destruct (bounded_choice n (fun i k => walk n E k x i)) as (C & HC); [intros i Hi; exact (I x i Hx Hi)|].
  exists (a * a + B + C). intros i j Hi Hj. destruct (HB i Hi) as (b & Lb & Wb). destruct (HC j Hj) as (c & Lc & Wc).
  replace (a * a + B + C) with (b + ((a * a + (B - b) + (C - c)) + c)) by lia.
  apply walk_app with x; [exact Wb|]. apply walk_app with x; [apply All; lia|exact Wc].
Qed.
Lemma regular_ergodic n P : 2 <= n -> stochastic n P -> ergodic n P <-> regular n P.
Proof.
  intros Hn St. pose proof (proj1 (proj2 St)) as Pos. split.
  - intros [I Per]. apply is_regular_spec; [exact Hn|exact St|]. destruct (is_regular P) eqn:E; [reflexivity|exfalso].
    apply (aperiodic_full n (edge P) 0 ltac:(lia) I (Per 0 ltac:(lia))). intros F. apply (regular_full n P Pos) in F.
    apply (is_regular_spec n P Hn St) in F. congruence.
  - intros R. apply (regular_full n P Pos) in R. destruct R as (m & F). split; [intros i j Hi Hj; exists m; apply F; assumption|].
    intros x Hx. split; [lia|]. split; [intros; exists (Z.of_nat k); lia|]. intros e D.
    pose proof (full_S n (edge P) m (stochastic_total n P St) F) as F1.
    pose proof (D m (F x x Hx Hx)) as D0. pose proof (D (S m) (F1 x x Hx Hx)) as D1.
    replace 1%Z with (Z.of_nat (S m) - Z.of_nat m)%Z by lia. apply Z.divide_sub_r; assumption.
Qed.

(** ** Convergence *)
Lemma kstep_add n P a b i j : kstep n P (a + b) i j = sumn n (fun l => kstep n P a i l * kstep n P b l j)%Qc \/ ~ i < n.
Proof.
  revert i. induction a as [|a IH]; intros i; destruct (lt_dec i n) as [Hi|Hi]; [left| right; exact Hi|left|right; exact Hi].
  - cbn [Nat.add]. rewrite (sumn_single n _ i Hi); [rewrite kstep_0, delta_refl; ring|]. intros l _ N. rewrite kstep_0, delta_neq by congruence. ring.
  - cbn [Nat.add]. rewrite kstep_S.
    rewrite (sumn_ext n (fun l => kstep n P (S a) i l * kstep n P b l j)%Qc (fun l => sumn n (fun x => mget P i x * (kstep n P a x l * kstep n P b l j))%Qc)).
    + rewrite sumn_swap. apply sumn_ext. intros x Hx. destruct (IH x) as [E|F]; [|contradiction]. rewrite E, sumn_mul_l. reflexivity.
    + intros l _. rewrite kstep_S, <- sumn_mul_r. apply sumn_ext. intros; ring.
Qed.
Lemma stationary_kstep n P pi k j : stationary n P pi -> j < n -> sumn n (fun i => vget pi i * kstep n P k i j)%Qc = vget pi j.
Proof.
  intros Sp Hj. induction k as [|k IH].
  - rewrite (sumn_single n _ j Hj); [rewrite kstep_0, delta_refl; ring|]. intros i _ N. rewrite kstep_0, delta_neq by exact N. ring.
  - rewrite (sumn_ext n _ (fun i => sumn n (fun x => vget pi i * mget P i x * kstep n P k x j)%Qc)).
    + rewrite sumn_swap, <- IH. apply sumn_ext. intros x Hx. rewrite <- (proj2 Sp x Hx), <- sumn_mul_r. apply sumn_ext. intros; ring.
    + intros i _. rewrite kstep_S, <- sumn_mul_l. apply sumn_ext. intros; ring.
Qed.
Lemma dist_le_1 n v i : distribution n v -> i < n -> (vget v i <= 1)%Qc.
Proof. intros (L & Pos & S1) Hi. rewrite <- S1. apply sumn_term_le; [exact Hi|exact Pos]. Qed.
Lemma min_pos n (f : nat -> Qc) : (forall i, i < n -> (0 < f i)%Qc) -> exists d, (0 < d)%Qc /\ (d <= 1)%Qc /\ forall i, i < n -> (d <= f i)%Qc.
Proof.
  induction n as [|n IH]; intros H; [exists 1q; repeat split; try lia; discriminate|]. destruct IH as (d & D0 & D1 & Dn); [intros; apply H; lia|].
  destruct (Qclt_le_dec (f n) d) as [L|L].
  - exists (f n). split; [apply H; lia|]. split; [apply Qcle_trans with d; [apply Qclt_le_weak; exact L|exact D1]|]. intros i Hi.
    destruct (Nat.eq_dec i n) as [->|N]; [apply Qcle_refl|]. apply Qcle_trans with d; [apply Qclt_le_weak; exact L|apply Dn; lia].
  - exists d. split; [exact D0|]. split; [exact D1|]. intros i Hi. destruct (Nat.eq_dec i n) as [->|N]; [exact L|apply Dn; lia].
Qed.
Lemma bounded_min n m (f : nat -> nat -> Qc) : (forall i j, i < m -> j < n -> (0 < f i j)%Qc) ->
  exists d, (0 < d)%Qc /\ (d <= 1)%Qc /\ forall i, i < m -> forall j, j < n -> (d <= f i j)%Qc.
Proof.
  induction m as [|m IH]; intros H; [exists 1q; repeat split; try lia; discriminate|]. destruct IH as (d & D0 & D1 & Dn); [intros; apply H; lia|].
  destruct (min_pos n (f m)) as (e & E0 & E1 & En); [intros; apply H; lia|].
  destruct (Qclt_le_dec e d) as [L|L].
  - exists e. split; [exact E0|]. split; [exact E1|]. intros i Hi j Hj. destruct (Nat.eq_dec i m) as [->|N]; [apply En; exact Hj|].
    apply Qcle_trans with d; [apply Qclt_le_weak; exact L|apply Dn; [lia|exact Hj]].
  - exists d. split; [exact D0|]. split; [exact D1|]. intros i Hi j Hj. destruct (Nat.eq_dec i m) as [->|N]; [apply Qcle_trans with e; [exact L|apply En; exact Hj]|apply Dn; [lia|exact Hj]].
Qed.
Lemma uniform_tends n (f : nat -> nat -> Qc) (a : nat -> Qc) eps : (forall i, i < n -> tends (fun k => f k i) (a i)) -> (0 < eps)%Qc ->
  exists N, forall i k, i < n -> N <= k -> (Qcabs (f k i - a i) < eps)%Qc.
Proof.
  intros H E. destruct (bounded_choice n (fun i N => forall k, N <= k -> (Qcabs (f k i - a i) < eps)%Qc)) as (B & HB); [intros i Hi; exact (H i Hi eps E)|].
  exists B. intros i k Hi Hk. destruct (HB i Hi) as (N & LN & HN). apply HN. lia.
Qed.
Lemma regular_power_tends n P pi M : stochastic n P -> distribution n pi -> stationary n P pi ->
  (forall i j, i < n -> j < n -> (0 < kstep n P M i j)%Qc) -> forall i j, i < n -> j < n -> tends (fun k => kstep n P (k * M) i j) (vget pi j).
Proof.
  intros St Dp Sp F i j Hi Hj.
  assert (exists d, (0 < d)%Qc /\ (d <= 1)%Qc /\ forall a, a < n -> forall b, b < n -> (d <= kstep n P M a b)%Qc) as (d & D0 & D1 & Dd).
  { destruct (bounded_min n n (kstep n P M) F) as (d & H). exists d. exact H. }
  set (R := fun a b => (kstep n P M a b - d * vget pi b)%Qc).
  assert (Rs : forall a, a < n -> sumn n (R a) = (1 - d)%Qc).
  { intros a Ha. unfold R. rewrite sumn_minus, kstep_sum, sumn_mul_l by assumption. rewrite (proj2 (proj2 Dp)). ring. }
  apply (affine_tends n R) with (b := fun _ => (d * vget pi j)%Qc) (x := fun _ => vget pi j) (f := fun k i => kstep n P (k * M) i j); [| | | | |exact Hi].
  - intros a b Ha Hb. unfold R. specialize (Dd a Ha b Hb). pose proof (dist_le_1 n pi b Dp Hb). pose proof (proj1 (proj2 Dp) b Hb).
    assert ((d * vget pi b <= d * 1)%Qc) by (rewrite !(Qcmult_comm d); apply Qcmult_le_compat_r; [assumption|apply Qclt_le_weak; exact D0]).
    rewrite Qcmult_1_r in *. qclra.
  - intros a Ha. rewrite Rs by exact Ha. qclra.
  - intros a Ha. exists a. split; [exact Ha|]. split; [exists 0; constructor; exact Ha|]. rewrite Rs by exact Ha. qclra.
  - intros a Ha. rewrite sumn_mul_r, Rs by exact Ha. ring.
  - intros k a Ha. cbn [Nat.mul]. destruct (kstep_add n P M (k * M) a j) as [E|N]; [|contradiction]. rewrite E.
    rewrite <- (stationary_kstep n P pi (k * M) j Sp Hj) at 1. rewrite <- sumn_mul_l, <- sumn_plus. apply sumn_ext. intros l Hl. unfold R. ring.
Qed.
Lemma convex_close n (w y : nat -> Qc) c eps : (forall l, l < n -> (0 <= w l)%Qc) -> sumn n w = 1q -> (forall l, l < n -> (Qcabs (y l - c) < eps)%Qc) -> 0 < n ->
  (Qcabs (sumn n (fun l => w l * y l) - c) < eps)%Qc.
Proof.
  intros Pw Sw Hy Hn. apply Qcabs_lt.
  assert (E : (sumn n (fun l => w l * y l) - c)%Qc = sumn n (fun l => w l * (y l - c))%Qc).
  { rewrite (sumn_ext n (fun l => w l * (y l - c))%Qc (fun l => w l * y l - w l * c)%Qc) by (intros; ring). rewrite sumn_minus, sumn_mul_r, Sw. ring. }
  assert (exists l, l < n /\ (0 < w l)%Qc) as (l0 & Hl0 & P0).
  { destruct (argmax_exists n w Hn) as (l & Hl & M). exists l. split; [exact Hl|]. destruct (Qcle_lt_or_eq _ _ (Pw l Hl)) as [L|L]; [exact L|exfalso].
    assert (Z : sumn n w = 0q). { apply sumn_0. intros x Hx. apply Qcle_antisym; [rewrite L; apply M; exact Hx|apply Pw; exact Hx]. } rewrite Z in Sw. discriminate. }
  rewrite E. split.
  - replace (- eps)%Qc with (sumn n (fun l => w l * - eps)%Qc) by (rewrite sumn_mul_r, Sw; ring).
    apply (sumn_lt n _ _ l0 Hl0).
    + rewrite !(Qcmult_comm (w l0)). apply Qcmult_lt_compat_r; [exact P0|]. apply (proj1 (Qcabs_lt _ _) (Hy l0 Hl0)).
    + intros l Hl. rewrite !(Qcmult_comm (w l)). apply Qcmult_le_compat_r; [|apply Pw; exact Hl]. apply Qclt_le_weak, (proj1 (Qcabs_lt _ _) (Hy l Hl)).
  - replace eps with (sumn n (fun l => w l * eps)%Qc) by (rewrite sumn_mul_r, Sw; ring).
    apply (sumn_lt n _ _ l0 Hl0).
    + rewrite !(Qcmult_comm (w l0)). apply Qcmult_lt_compat_r; [exact P0|]. apply (proj1 (Qcabs_lt _ _) (Hy l0 Hl0)).
    + intros l Hl. rewrite !(Qcmult_comm (w l)). apply Qcmult_le_compat_r; [|apply Pw; exact Hl]. apply Qclt_le_weak, (proj1 (Qcabs_lt _ _) (Hy l Hl)).
Qed.
Lemma ergodic_tends n P pi : 2 <= n -> stochastic n P -> ergodic n P -> distribution n pi -> stationary n P pi ->
  forall i j, i < n -> j < n -> tends (fun k => kstep n P k i j) (vget pi j).
Proof.
  intros Hn St Er Dp Sp i j Hi Hj eps He. apply (regular_ergodic n P Hn St) in Er. destruct Er as (M & F).
  destruct (uniform_tends n (fun k i => kstep n P (k * M) i j) (fun _ => vget pi j) eps) as (N & HN).
  { intros l Hl. apply regular_power_tends with (M := M); assumption. }
  { exact He. }
  exists (N * M). intros k Hk. replace k with ((k - N * M) + N * M) by lia.
  destruct (kstep_add n P (k - N * M) (N * M) i j) as [E|C]; [|contradiction]. rewrite E.
  apply convex_close; [| | |lia].
  - intros l Hl. apply kstep_nonneg; [apply St|exact Hi|exact Hl].
  - apply (kstep_sum n P (k - N * M) St i Hi).
  - intros l Hl. apply HN; [exact Hl|lia].
Qed.
Lemma step_dist_tends n P pi x : 2 <= n -> stochastic n P -> ergodic n P -> distribution n pi -> stationary n P pi -> distribution n x ->
  forall j, j < n -> tends (fun k => step_dist n P x k j) (vget pi j).
Proof.
  intros Hn St Er Dp Sp Dx j Hj. replace (vget pi j) with (sumn n (fun i => vget x i * vget pi j)%Qc) by (rewrite sumn_mul_r, (proj2 (proj2 Dx)); ring).
  unfold step_dist. apply tends_sumn with (f := fun k i => (vget x i * kstep n P k i j)%Qc). intros i Hi. apply tends_mul_l. apply ergodic_tends; assumption.
Qed.
Lemma tends_abs f l : tends f l -> tends (fun k => Qcabs (f k - l)) 0q.
Proof.
  intros H eps He. destruct (H eps He) as (N & HN). exists N. intros k Hk. specialize (HN k Hk).
  replace (Qcabs (Qcabs (f k - l) - 0))%Qc with (Qcabs (f k - l)); [exact HN|].
  replace (Qcabs (f k - l) - 0)%Qc with (Qcabs (f k - l)) by ring. symmetry. apply Qcabs_eq_nonneg, Qcabs_nonneg.
Qed.
Lemma l1_tends n P pi x : 2 <= n -> stochastic n P -> ergodic n P -> distribution n pi -> stationary n P pi -> distribution n x ->
  tends (l1_after n P x pi) 0q.
Proof.
  intros Hn St Er Dp Sp Dx. unfold l1_after. replace 0q with (sumn n (fun _ => 0q)) by (apply sumn_0; reflexivity).
  apply tends_sumn with (f := fun k j => Qcabs (step_dist n P x k j - vget pi j)). intros j Hj. apply tends_abs. apply step_dist_tends; assumption.
Qed.
Lemma mixing_exists n P pi x cutoff : 2 <= n -> stochastic n P -> ergodic n P -> distribution n pi -> stationary n P pi -> distribution n x -> (0 < cutoff)%Qc ->
  exists t, forall s, t <= s -> (l1_after n P x pi s <= cutoff)%Qc.
Proof.
  intros Hn St Er Dp Sp Dx Hc. destruct (l1_tends n P pi x Hn St Er Dp Sp Dx cutoff Hc) as (N & HN). exists N. intros s Hs.
  specialize (HN s Hs). apply Qcabs_lt in HN. qclra.
Qed.

(** ** Long-run fraction of time, for every irreducible chain *)
Lemma visits_fund n P pi z : stochastic n P -> (forall i j, i < n -> j < n -> sumn n (fun k => mget P i k * mget z k j)%Qc = (mget z i j + vget pi j - delta i j)%Qc) ->
  forall i j, i < n -> j < n -> forall k, visits_by n P k i j = (Qcn k * vget pi j + mget z i j - sumn n (fun l => kstep n P k i l * mget z l j))%Qc.
Proof.
  intros St H i j Hi Hj. unfold visits_by. induction k as [|k IH].
  - cbn [sumn]. rewrite (sumn_single n _ i Hi); [rewrite kstep_0, delta_refl, Qcn_0; ring|]. intros l _ N. rewrite kstep_0, delta_neq by congruence. ring.
  - cbn [sumn]. rewrite IH, Qcn_S. assert (Ks : sumn n (kstep n P k i) = 1q) by exact (kstep_sum n P k St i Hi).
    assert (E : sumn n (fun l => kstep n P (S k) i l * mget z l j)%Qc = (sumn n (fun l => kstep n P k i l * mget z l j) + vget pi j - kstep n P k i j)%Qc).
    { rewrite (sumn_ext n _ (fun l => sumn n (fun x => kstep n P k i x * (mget P x l * mget z l j))%Qc)).
      - rewrite sumn_swap. rewrite (sumn_ext n _ (fun x => kstep n P k i x * mget z x j + kstep n P k i x * vget pi j - kstep n P k i x * delta x j)%Qc).
        + rewrite sumn_minus, sumn_plus, (sumn_mul_r n (vget pi j) (kstep n P k i)), Ks.
          rewrite (sumn_single n (fun x => kstep n P k i x * delta x j)%Qc j Hj); [rewrite delta_refl; ring|]. intros x _ N. rewrite delta_neq by exact N. ring.
        + intros x Hx. rewrite sumn_mul_l, (H x j Hx Hj). ring.
      - intros l Hl. rewrite kstep_S_r by assumption. rewrite <- sumn_mul_r. apply sumn_ext. intros; ring. }
    rewrite E. ring.
Qed.
Lemma bounded_over_k (g : nat -> Qc) C : (forall k, (Qcabs (g k) <= C)%Qc) -> tends (fun k => g k / Qcn k)%Qc 0q.
Proof.
  intros H eps He. destruct (archimedes (C / eps)) as (q & Hq). exists (S q). intros k Hk.
  assert (Pk : (0 < Qcn k)%Qc) by (apply Qcn_pos; lia).
  assert (L : (C < eps * Qcn k)%Qc).
  { apply Qclt_le_trans with (eps * Qcn q)%Qc.
    - replace C with (eps * (C / eps))%Qc by (field; apply Qc_lt_neq; exact He). rewrite !(Qcmult_comm eps). apply Qcmult_lt_compat_r; assumption.
    - rewrite !(Qcmult_comm eps). apply Qcmult_le_compat_r; [apply Qcn_le; lia|apply Qclt_le_weak; exact He]. }
  apply Qcabs_lt. specialize (H k). apply Qcabs_le in H. destruct H as [H1 H2].
  assert (I : (0 < / Qcn k)%Qc) by (apply Qc_inv_pos; exact Pk).
  assert (K : (Qcn k * / Qcn k = 1)%Qc) by (apply Qcmult_inv_r, not_eq_sym, Qclt_not_eq; exact Pk).
  assert (U : (C * / Qcn k < eps)%Qc).
  { apply Qclt_le_trans with (eps * Qcn k * / Qcn k)%Qc; [apply Qcmult_lt_compat_r; assumption|]. rewrite <- Qcmult_assoc, K, Qcmult_1_r. apply Qcle_refl. }
  assert (V1 : (- C * / Qcn k <= g k * / Qcn k)%Qc) by (apply Qcmult_le_compat_r; [exact H1|apply Qclt_le_weak; exact I]).
  assert (V2 : (g k * / Qcn k <= C * / Qcn k)%Qc) by (apply Qcmult_le_compat_r; [exact H2|apply Qclt_le_weak; exact I]).
  unfold Qcdiv. replace (- C * / Qcn k)%Qc with (- (C * / Qcn k))%Qc in V1 by ring. split; qclra.
Qed.
Lemma bound_exists n (f : nat -> Qc) : exists B, (0 <= B)%Qc /\ forall i, i < n -> (Qcabs (f i) <= B)%Qc.
Proof.
  induction n as [|n (B & B0 & HB)]; [exists 0q; split; [apply Qcle_refl|lia]|]. exists (B + Qcabs (f n))%Qc. pose proof (Qcabs_nonneg (f n)). split; [qclra|].
  intros i Hi. destruct (Nat.eq_dec i n) as [->|N]; [qclra|]. specialize (HB i ltac:(lia)). qclra.
Qed.
Lemma average_tends n m pi : env_ok n m -> irreducible n (edge (en_p m)) -> distribution n pi -> stationary n (en_p m) pi ->
  forall i j, i < n -> j < n -> tends (fun k => visits_by n (en_p m) k i j / Qcn k)%Qc (vget pi j).
Proof.
  intros Ok Irr Dp Sp i j Hi Hj. destruct (fund_z n m Ok Irr pi Dp Sp) as (z & _ & _ & Hz). assert (St : stochastic n (en_p m)) by apply Ok.
  set (P := en_p m) in *. destruct (bound_exists n (fun l => mget z l j)) as (B & B0 & HB).
  set (g := fun k => (mget z i j - sumn n (fun l => kstep n P k i l * mget z l j))%Qc).
  assert (T : tends (fun k => (vget pi j + g k / Qcn k)%Qc) (vget pi j + 0)%Qc).
  { apply tends_plus; [apply tends_const|]. apply bounded_over_k with (C := (B + B)%Qc). intros k. unfold g. apply Qcabs_le.
    pose proof (proj1 (Qcabs_le _ _) (HB i Hi)) as [Z1 Z2]. assert (Ks : sumn n (kstep n P k i) = 1q) by exact (kstep_sum n P k St i Hi).
    assert (U : (sumn n (fun l => kstep n P k i l * mget z l j) <= sumn n (fun l => kstep n P k i l * B))%Qc).
    { apply sumn_le. intros l Hl. rewrite !(Qcmult_comm (kstep n P k i l)). apply Qcmult_le_compat_r; [apply (proj1 (Qcabs_le _ _) (HB l Hl))|apply kstep_nonneg; [apply St|exact Hi|exact Hl]]. }
    assert (V : (sumn n (fun l => kstep n P k i l * - B) <= sumn n (fun l => kstep n P k i l * mget z l j))%Qc).
    { apply sumn_le. intros l Hl. rewrite !(Qcmult_comm (kstep n P k i l)). apply Qcmult_le_compat_r; [apply (proj1 (Qcabs_le _ _) (HB l Hl))|apply kstep_nonneg; [apply St|exact Hi|exact Hl]]. }
    rewrite sumn_mul_r, Ks in U, V. split; qclra. }
  replace (vget pi j + 0)%Qc with (vget pi j) in T by ring.
  apply tends_shift. apply tends_shift in T. eapply tends_ext; [|exact T]. intros k. cbv beta.
  rewrite (visits_fund n P pi z St Hz i j Hi Hj (S k)). unfold g. field. apply Qc_lt_neq, Qcn_pos. lia.
Qed.
