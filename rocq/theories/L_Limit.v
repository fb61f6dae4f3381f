(** L_Limit: convergence of affine iterations of substochastic kernels. *)
From Verif Require Export S_Limit L_Measures3.
Open Scope nat_scope.

(** ** Sequences *)
Lemma Qcabs_lt a b : (Qcabs a < b)%Qc <-> (- b < a /\ a < b)%Qc.
Proof. unfold Qcabs. destruct (Qcleb_spec 0 a); split; [intros; split|intros [? ?]|intros; split|intros [? ?]]; qclra. Qed.
Lemma tends_ext f g l : (forall k, f k = g k) -> tends f l -> tends g l.
Proof. intros E T eps He. destruct (T eps He) as (N & H). exists N. intros k Hk. rewrite <- E. auto. Qed.
Lemma tends_const c : tends (fun _ => c) c.
Proof. intros eps He. exists 0. intros k _. replace (c - c)%Qc with 0q by ring. apply Qcabs_lt. split; qclra. Qed.
Lemma half_pos e : (0 < e)%Qc -> (0 < e / Q2Qc 2)%Qc.
Proof. intros. apply Qc_div_pos; [assumption|reflexivity]. Qed.
Lemma half_half e : (e / Q2Qc 2 + e / Q2Qc 2)%Qc = e.
Proof. change (Q2Qc 2) with two. rewrite two_eq. field. intros H. discriminate H. Qed.
Lemma tends_plus f g a b : tends f a -> tends g b -> tends (fun k => f k + g k)%Qc (a + b)%Qc.
Proof.
  intros F G eps He. pose proof (half_pos _ He) as Hh. destruct (F _ Hh) as (N1 & H1). destruct (G _ Hh) as (N2 & H2).
  exists (Nat.max N1 N2). intros k Hk. specialize (H1 k ltac:(lia)). specialize (H2 k ltac:(lia)).
  apply Qcabs_lt in H1. apply Qcabs_lt in H2. apply Qcabs_lt. pose proof (half_half eps) as HH.
  set (h := (eps / Q2Qc 2)%Qc) in *. clearbody h. split; qclra.
Qed.
Lemma tends_mul_l c f a : tends f a -> tends (fun k => c * f k)%Qc (c * a)%Qc.
Proof.
  intros F eps He. destruct (Qc_eq_dec c 0q) as [->|Nc].
  - exists 0. intros k _. replace (0 * f k - 0 * a)%Qc with 0q by ring. apply Qcabs_lt. split; qclra.
  - assert (Ca : (0 < Qcabs c)%Qc).
    { pose proof (Qcabs_nonneg c) as H. destruct (Qcle_lt_or_eq _ _ H) as [|E]; [assumption|]. symmetry in E. exfalso. apply Nc. apply Qcabs_0. exact E. }
    destruct (F (eps / Qcabs c)%Qc (Qc_div_pos _ _ He Ca)) as (N & H). exists N. intros k Hk. specialize (H k Hk).
    apply Qcabs_lt in H. destruct H as [Ha Hb].
    assert (E : (Qcabs c * (eps / Qcabs c))%Qc = eps) by (rewrite Qcmult_comm; apply Qc_div_mul; apply Qc_lt_neq; exact Ca).
    pose proof (Qc_mul_pos (Qcabs c) (f k - a + eps / Qcabs c)%Qc Ca ltac:(qclra)) as M1.
    pose proof (Qc_mul_pos (Qcabs c) (eps / Qcabs c - (f k - a))%Qc Ca ltac:(qclra)) as M2.
    set (d := (eps / Qcabs c)%Qc) in *. clearbody d.
    replace (c * f k - c * a)%Qc with (c * (f k - a))%Qc by ring. set (x := (f k - a)%Qc) in *. clearbody x.
    apply Qcabs_lt. unfold Qcabs in *. destruct (Qcleb_spec 0 c); split; qcnra.
Qed.
Lemma tends_minus f g a b : tends f a -> tends g b -> tends (fun k => f k - g k)%Qc (a - b)%Qc.
Proof.
  intros F G. pose proof (tends_plus _ _ _ _ F (tends_mul_l (-(1)) _ _ G)) as H.
  replace (a - b)%Qc with (a + - (1) * b)%Qc by ring. eapply tends_ext; [|exact H]. intros k. cbv beta. ring.
Qed.
Lemma tends_sumn n (f : nat -> nat -> Qc) a : (forall i, i < n -> tends (fun k => f k i) (a i)) -> tends (fun k => sumn n (f k)) (sumn n a).
Proof.
  intros H. induction n as [|n IH]; cbn [sumn].
  - apply tends_const.
  - apply tends_plus; [apply IH; intros; apply H; lia|apply H; lia].
Qed.
Lemma tends_shift f l : tends f l <-> tends (fun k => f (S k)) l.
Proof.
  split; intros H eps He; destruct (H eps He) as (N & HN).
  - exists N. intros k Hk. apply HN. lia.
  - exists (S N). intros [|k] Hk; [lia|]. apply HN. lia.
Qed.
Lemma tends_le f l b : tends f l -> (forall k, (f k <= b)%Qc) -> (l <= b)%Qc.
Proof.
  intros T H. destruct (Qclt_le_dec b l) as [L|]; [exfalso|assumption].
  destruct (T (l - b)%Qc ltac:(qclra)) as (N & HN). specialize (HN N (le_n N)). specialize (H N). apply Qcabs_lt in HN. qclra.
Qed.
Lemma tends_ge f l b : tends f l -> (forall k, (b <= f k)%Qc) -> (b <= l)%Qc.
Proof.
  intros T H. destruct (Qclt_le_dec l b) as [L|]; [exfalso|assumption].
  destruct (T (b - l)%Qc ltac:(qclra)) as (N & HN). specialize (HN N (le_n N)). specialize (H N). apply Qcabs_lt in HN. qclra.
Qed.
Lemma tends_unique f a b : tends f a -> tends f b -> a = b.
Proof.
  intros A B. pose proof (tends_minus _ _ _ _ A B) as D.
  assert (Z : tends (fun _ => 0q) (a - b)%Qc) by (eapply tends_ext; [|exact D]; intros; cbv beta; ring).
  pose proof (tends_le _ _ 0q Z ltac:(intros; apply Qcle_refl)). pose proof (tends_ge _ _ 0q Z ltac:(intros; apply Qcle_refl)). qclra.
Qed.

(** ** Archimedes and geometric sequences *)
Lemma Qcn_Z q : Qcn q = Q2Qc (inject_Z (Z.of_nat q)).
Proof. pose proof (sumn_const_n q 1q) as A. rewrite sumn_const in A. rewrite !Qcmult_1_r in A. symmetry. exact A. Qed.
Lemma archimedes (x : Qc) : exists q : nat, (x < Qcn q)%Qc.
Proof.
  exists (S (Z.to_nat (Z.abs (Qnum (this x))))). unfold Qclt. rewrite Qcn_S. rewrite this_plus. rewrite Qcn_Z. rewrite this_Q2Qc.
  change (this 1q) with 1%Q. rewrite Z2Nat.id by lia. destruct (this x) as [p q]. cbn [Qnum]. unfold Qlt, Qplus, inject_Z. cbn [Qnum Qden].
  nia.
Qed.
Lemma bernoulli a q : (0 <= a)%Qc -> (1 + Qcn q * a <= qpow (1 + a) q)%Qc.
Proof.
  intros Ha. induction q as [|q IH].
  - rewrite Qcn_0. cbn [qpow]. replace (1 + 0 * a)%Qc with 1q by ring. apply Qcle_refl.
  - cbn [qpow]. rewrite Qcn_S. pose proof (Qcn_nonneg q). 
    pose proof (Qc_mul_nonneg (1 + a) (qpow (1 + a) q - (1 + Qcn q * a)) ltac:(qclra) ltac:(qclra)) as M.
    pose proof (Qc_mul_nonneg (Qcn q) (a * a) H (Qc_mul_nonneg _ _ Ha Ha)). qcnra.
Qed.
Lemma qpow_mul x y q : qpow (x * y)%Qc q = (qpow x q * qpow y q)%Qc.
Proof. induction q as [|q IH]; cbn [qpow]; [ring|rewrite IH; ring]. Qed.
Lemma qpow_nonneg' x q : (0 <= x)%Qc -> (0 <= qpow x q)%Qc.
Proof. intros. induction q; cbn [qpow]; [discriminate|apply Qc_mul_nonneg; assumption]. Qed.
Lemma qpow_pos x q : (0 < x)%Qc -> (0 < qpow x q)%Qc.
Proof. intros. induction q; cbn [qpow]; [reflexivity|apply Qc_mul_pos; assumption]. Qed.
Lemma qpow_le_1 x q : (0 <= x)%Qc -> (x <= 1)%Qc -> (qpow x q <= 1)%Qc.
Proof.
  intros H0 H1. induction q; cbn [qpow]; [apply Qcle_refl|]. pose proof (qpow_nonneg' x q H0).
  pose proof (Qc_mul_nonneg (1 - x) (qpow x q) ltac:(qclra) H). qcnra.
Qed.
Lemma qpow_mono x a b : (0 <= x)%Qc -> (x <= 1)%Qc -> a <= b -> (qpow x b <= qpow x a)%Qc.
Proof.
  intros H0 H1 L. induction L; [apply Qcle_refl|]. cbn [qpow]. pose proof (qpow_nonneg' x m H0).
  pose proof (Qc_mul_nonneg (1 - x) (qpow x m) ltac:(qclra) H). qcnra.
Qed.
Lemma qpow_small d eps : (0 <= d)%Qc -> (d < 1)%Qc -> (0 < eps)%Qc -> exists q, (qpow d q < eps)%Qc.
Proof.
  intros D0 D1 He. destruct (Qcle_lt_or_eq _ _ D0) as [Dp|E].
  - set (a := (/ d - 1)%Qc). assert (Dn : d <> 0q) by (apply Qc_lt_neq; exact Dp).
    assert (Ha : (0 <= a)%Qc).
    { unfold a. pose proof (Qc_mul_pos (/ d) (1 - d) (Qc_inv_pos _ Dp) ltac:(qclra)) as M.
      replace (/ d * (1 - d))%Qc with (/ d - 1)%Qc in M by (field; exact Dn). qclra. }
    assert (Ap : (0 < a)%Qc).
    { unfold a. pose proof (Qc_mul_pos (/ d) (1 - d) (Qc_inv_pos _ Dp) ltac:(qclra)) as M.
      replace (/ d * (1 - d))%Qc with (/ d - 1)%Qc in M by (field; exact Dn). exact M. }
    destruct (archimedes (/ eps / a)%Qc) as (q & Hq). exists q.
    pose proof (bernoulli a q Ha) as B. replace (1 + a)%Qc with (/ d)%Qc in B by (unfold a; ring).
    assert (E1 : (qpow d q * qpow (/ d) q)%Qc = 1q).
    { rewrite <- qpow_mul. replace (d * / d)%Qc with 1q by (field; exact Dn). clear. induction q; cbn [qpow]; [reflexivity|rewrite IHq; ring]. }
    assert (E2 : (/ eps < Qcn q * a)%Qc).
    { pose proof (Qc_mul_pos a (Qcn q - / eps / a) Ap ltac:(qclra)) as M.
      replace (a * (Qcn q - / eps / a))%Qc with (Qcn q * a - / eps)%Qc in M; [qclra|]. field. split; apply Qc_lt_neq; assumption. }
    assert (E3 : (/ eps < qpow (/ d) q)%Qc) by qclra.
    pose proof (qpow_pos d q Dp) as Qp.
    pose proof (Qc_mul_pos (qpow d q * eps) (qpow (/ d) q - / eps) (Qc_mul_pos _ _ Qp He) ltac:(qclra)) as M.
    replace (qpow d q * eps * (qpow (/ d) q - / eps))%Qc with (eps * (qpow d q * qpow (/ d) q) - qpow d q)%Qc in M by (field; apply Qc_lt_neq; exact He).
    rewrite E1 in M. qclra.
  - exists 1. cbn [qpow]. rewrite <- E. replace (0 * 1)%Qc with 0q by ring. exact He.
Qed.
Lemma qpow_tends d : (0 <= d)%Qc -> (d < 1)%Qc -> tends (qpow d) 0q.
Proof.
  intros D0 D1 eps He. destruct (qpow_small d eps D0 D1 He) as (q & Hq). exists q. intros k Hk.
  pose proof (qpow_mono d q k D0 ltac:(qclra) Hk). pose proof (qpow_nonneg' d k D0). apply Qcabs_lt. split; qclra.
Qed.

(** ** Iterating a substochastic kernel *)
Section LEAK.
Variables (n : nat) (Q : nat -> nat -> Qc).
Hypothesis Pos : forall i j, i < n -> j < n -> (0 <= Q i j)%Qc.
Hypothesis Sub : forall i, i < n -> (sumn n (Q i) <= 1)%Qc.
Fixpoint iter_k (k : nat) (x : nat -> Qc) (i : nat) : Qc :=
  match k with 0 => x i | S k' => sumn n (fun j => Q i j * iter_k k' x j)%Qc end.
Lemma iter_k_ext k x y : (forall i, i < n -> x i = y i) -> forall i, i < n -> iter_k k x i = iter_k k y i.
Proof. intros E. induction k as [|k IH]; intros i Hi; cbn [iter_k]; [auto|]. apply sumn_ext. intros j Hj. rewrite IH by exact Hj. reflexivity. Qed.
Lemma iter_k_add a b x : forall i, iter_k (a + b) x i = iter_k a (iter_k b x) i.
Proof. induction a as [|a IH]; intros i; cbn [iter_k Nat.add]; [reflexivity|]. apply sumn_ext. intros j _. rewrite IH. reflexivity. Qed.
Lemma iter_k_S_r k x i : iter_k (S k) x i = iter_k k (fun a => sumn n (fun j => Q a j * x j)%Qc) i.
Proof. replace (S k) with (k + 1) by lia. rewrite iter_k_add. reflexivity. Qed.
Lemma iter_k_mono k x y : (forall i, i < n -> (x i <= y i)%Qc) -> forall i, i < n -> (iter_k k x i <= iter_k k y i)%Qc.
Proof.
  intros E. induction k as [|k IH]; intros i Hi; cbn [iter_k]; [auto|]. apply sumn_le. intros j Hj.
  pose proof (Qc_mul_nonneg (Q i j) (iter_k k y j - iter_k k x j) (Pos i j Hi Hj) ltac:(specialize (IH j Hj); qclra)). qcnra.
Qed.
Lemma iter_k_scale k c x : forall i, iter_k k (fun a => c * x a)%Qc i = (c * iter_k k x i)%Qc.
Proof. induction k as [|k IH]; intros i; cbn [iter_k]; [reflexivity|]. rewrite <- sumn_mul_l. apply sumn_ext. intros j _. rewrite IH. ring. Qed.
Lemma iter_k_minus k x y : forall i, iter_k k (fun a => x a - y a)%Qc i = (iter_k k x i - iter_k k y i)%Qc.
Proof. induction k as [|k IH]; intros i; cbn [iter_k]; [reflexivity|]. rewrite <- sumn_minus. apply sumn_ext. intros j _. rewrite IH. ring. Qed.
Lemma iter_k_nonneg k x : (forall i, i < n -> (0 <= x i)%Qc) -> forall i, i < n -> (0 <= iter_k k x i)%Qc.
Proof. intros E. induction k as [|k IH]; intros i Hi; cbn [iter_k]; [auto|]. apply sumn_nonneg. intros j Hj. apply Qc_mul_nonneg; auto. Qed.
Definition surv (k i : nat) : Qc := iter_k k (fun _ => 1q) i.
Lemma surv_S_le k : forall i, i < n -> (surv (S k) i <= surv k i)%Qc.
Proof.
  intros i Hi. unfold surv. rewrite iter_k_S_r. apply iter_k_mono; [|exact Hi]. intros a Ha.
  rewrite (sumn_ext n _ (Q a)) by (intros; ring). apply Sub. exact Ha.
Qed.
Lemma surv_mono a b : a <= b -> forall i, i < n -> (surv b i <= surv a i)%Qc.
Proof. induction 1; intros i Hi; [apply Qcle_refl|]. eapply Qcle_trans; [apply surv_S_le; exact Hi|auto]. Qed.
Lemma surv_nonneg k i : i < n -> (0 <= surv k i)%Qc.
Proof. intros. apply iter_k_nonneg; [intros; discriminate|assumption]. Qed.
Lemma surv_le_1 k i : i < n -> (surv k i <= 1)%Qc.
Proof. intros. apply (surv_mono 0 k); [lia|assumption]. Qed.

Hypothesis Leak : forall i, i < n -> exists j, j < n /\ reach n (fun a b => (0 < Q a b)%Qc) i j /\ (sumn n (Q j) < 1)%Qc.
Lemma surv_lt i : i < n -> exists k, (surv k i < 1)%Qc.
Proof.
  intros Hi. destruct (Leak i Hi) as (j & Hj & (l & W) & L). exists (S l).
  induction W as [i _|l i c j _ Hc E W IH].
  - unfold surv. cbn [iter_k]. rewrite (sumn_ext n _ (Q i)) by (intros; ring). exact L.
  - specialize (IH Hc Hj L). change (surv (S (S l)) i) with (sumn n (fun a => Q i a * surv (S l) a)%Qc).
    apply Qclt_le_trans with (sumn n (Q i)); [|apply Sub; exact Hi].
    apply (sumn_lt n _ _ c Hc).
    + pose proof (Qc_mul_pos (Q i c) (1 - surv (S l) c) E ltac:(qclra)). qcnra.
    + intros a Ha. pose proof (surv_le_1 (S l) a Ha). pose proof (Qc_mul_nonneg (Q i a) (1 - surv (S l) a) (Pos i a Hi Ha) ltac:(qclra)). qcnra.
Qed.
Lemma surv_uniform : exists m d, 0 < m /\ (0 <= d)%Qc /\ (d < 1)%Qc /\ forall i, i < n -> (surv m i <= d)%Qc.
Proof.
  assert (A : forall b, b <= n -> exists m, forall i, i < b -> (surv m i < 1)%Qc).
  { induction b as [|b IH]; intros Hb; [exists 0; intros; lia|]. destruct (IH ltac:(lia)) as (m & Hm). destruct (surv_lt b ltac:(lia)) as (k & Hk).
    exists (Nat.max m k). intros i Hi. destruct (Nat.eq_dec i b) as [->|].
    - eapply Qcle_lt_trans; [apply (surv_mono k (Nat.max m k)); lia|exact Hk].
    - eapply Qcle_lt_trans; [apply (surv_mono m (Nat.max m k)); lia|apply Hm; lia]. }
  destruct (A n (le_n n)) as (m & Hm). destruct (Nat.eq_dec n 0) as [E|E].
  - exists 1, 0q. split; [lia|]. split; [apply Qcle_refl|]. split; [reflexivity|intros; lia].
  - destruct (argmax_exists n (surv (S m)) ltac:(lia)) as (a & Ha & Max). exists (S m), (surv (S m) a).
    split; [lia|]. split; [apply surv_nonneg; exact Ha|]. split; [|exact Max].
    eapply Qcle_lt_trans; [apply surv_S_le; exact Ha|apply Hm; exact Ha].
Qed.
Lemma surv_geometric : exists m d, 0 < m /\ (0 <= d)%Qc /\ (d < 1)%Qc /\ forall q i, i < n -> (surv (q * m) i <= qpow d q)%Qc.
Proof.
  destruct surv_uniform as (m & d & Hm & D0 & D1 & H). exists m, d. split; [exact Hm|]. split; [exact D0|]. split; [exact D1|]. induction q as [|q IH]; intros i Hi.
  - apply Qcle_refl.
  - cbn [Nat.mul qpow]. unfold surv. rewrite iter_k_add.
    apply Qcle_trans with (iter_k m (fun _ => qpow d q) i); [apply iter_k_mono; [exact IH|exact Hi]|].
    rewrite (iter_k_ext m _ (fun a => qpow d q * 1)%Qc) by (try assumption; intros; ring). rewrite iter_k_scale. fold (surv m i).
    pose proof (H i Hi). pose proof (Qc_mul_nonneg (qpow d q) (d - surv m i) (qpow_nonneg' d q D0) ltac:(qclra)). qcnra.
Qed.
Lemma surv_tends i : i < n -> tends (fun k => surv k i) 0q.
Proof.
  intros Hi. destruct surv_geometric as (m & d & Hm & D0 & D1 & H). intros eps He. destruct (qpow_small d eps D0 D1 He) as (q & Hq).
  exists (q * m). intros k Hk. pose proof (surv_mono _ _ Hk i Hi). pose proof (H q i Hi). pose proof (surv_nonneg k i Hi). apply Qcabs_lt. split; qclra.
Qed.
Lemma iter_bound k x M : (forall i, i < n -> (Qcabs (x i) <= M)%Qc) -> forall i, i < n -> (Qcabs (iter_k k x i) <= M * surv k i)%Qc.
Proof.
  intros H i Hi. apply Qcabs_le. unfold surv. rewrite <- iter_k_scale. split.
  - replace (- iter_k k (fun a => M * 1)%Qc i)%Qc with (-(1) * iter_k k (fun a => M * 1)%Qc i)%Qc by ring. rewrite <- iter_k_scale.
    apply iter_k_mono; [|exact Hi]. intros a Ha. specialize (H a Ha). apply Qcabs_le in H. replace (- (1) * (M * 1))%Qc with (- M)%Qc by ring. tauto.
  - apply iter_k_mono; [|exact Hi]. intros a Ha. specialize (H a Ha). apply Qcabs_le in H. replace (M * 1)%Qc with M by ring. tauto.
Qed.
Lemma bounded_fun (x : nat -> Qc) : exists M, (0 <= M)%Qc /\ forall i, i < n -> (Qcabs (x i) <= M)%Qc.
Proof.
  exists (sumn n (fun i => Qcabs (x i))). split; [apply sumn_nonneg; intros; apply Qcabs_nonneg|].
  intros i Hi. apply (sumn_term_le n (fun i => Qcabs (x i))); [exact Hi|]. intros; apply Qcabs_nonneg.
Qed.
Lemma iter_tends x i : i < n -> tends (fun k => iter_k k x i) 0q.
Proof.
  intros Hi. destruct (bounded_fun x) as (M & M0 & HM). pose proof (tends_mul_l M _ _ (surv_tends i Hi)) as T.
  intros eps He. destruct (T eps He) as (N & HN). exists N. intros k Hk. specialize (HN k Hk). cbv beta in HN.
  pose proof (iter_bound k x M HM i Hi) as B. apply Qcabs_lt in HN. replace (iter_k k x i - 0)%Qc with (iter_k k x i) by ring.
  eapply Qcle_lt_trans; [exact B|]. replace (M * 0)%Qc with 0q in HN by ring. qclra.
Qed.
(** an affine iteration tends to its fixed point *)
Lemma affine_tends (b x : nat -> Qc) (f : nat -> nat -> Qc) :
  (forall i, i < n -> x i = (b i + sumn n (fun j => Q i j * x j))%Qc) ->
  (forall k i, i < n -> f (S k) i = (b i + sumn n (fun j => Q i j * f k j))%Qc) ->
  forall i, i < n -> tends (fun k => f k i) (x i).
Proof.
  intros Hx Hf.
  assert (D : forall k i, i < n -> (x i - f k i)%Qc = iter_k k (fun a => x a - f 0%nat a)%Qc i).
  { induction k as [|k IH]; intros i Hi; cbn [iter_k]; [reflexivity|]. rewrite (Hx i Hi), (Hf k i Hi).
    rewrite (sumn_ext n (fun j => Q i j * iter_k k (fun a => x a - f 0%nat a)%Qc j)%Qc (fun j => Q i j * x j - Q i j * f k j)%Qc) by (intros j Hj; rewrite <- IH by exact Hj; ring).
    rewrite sumn_minus. ring. }
  intros i Hi. pose proof (iter_tends (fun a => x a - f 0%nat a)%Qc i Hi) as T.
  pose proof (tends_minus _ _ _ _ (tends_const (x i)) T) as T2. replace (x i - 0)%Qc with (x i) in T2 by ring.
  eapply tends_ext; [|exact T2]. intros k. cbv beta. rewrite <- D by exact Hi. ring.
Qed.
End LEAK.
