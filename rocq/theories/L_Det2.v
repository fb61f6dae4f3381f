(** L_Det2: determinants of products, inverses, relabellings, and their size. *)
From Verif Require Import S_Det L_Det S_Fitting L_Fitting.
Open Scope nat_scope.

Definition mulf (n : nat) (A B : nat -> nat -> Qc) : nat -> nat -> Qc := fun i j => sumn n (fun k => A i k * B k j)%Qc.
Lemma step_det n M c M' : c < n -> gj_step n n M c = Some M' -> exists d, d <> 0q /\ forall B, laplace n (mulf n (mget M) B) = (d * laplace n (mulf n (mget M') B))%Qc.
Proof.
  intros Hc H. destruct (gj_step_spec n n M c M' (le_n n) Hc H) as (r & Hr & Hnz & _ & HM). set (piv := mget M r c) in *.
  exists ((if Nat.eqb r c then 1q else (- 1q)%Qc) * piv)%Qc. split; [intros C; apply Qcmult_integral in C; destruct C as [C|C]; [destruct (Nat.eqb r c); discriminate|contradiction]|]. intros B.
  set (X := mulf n (mget M) B). set (Y := fun i => X (swp c r i)).
  assert (EX : laplace n X = ((if Nat.eqb r c then 1q else (- 1q)%Qc) * laplace n Y)%Qc).
  { destruct (Nat.eqb_spec r c) as [C|C].
    - unfold Y. rewrite (laplace_ext n (fun i => X (swp c r i)) X); [ring|]. intros i j _ _. rewrite C. f_equal. unfold swp. destruct (Nat.eqb_spec i c) as [->|]; reflexivity.
    - unfold Y. rewrite (laplace_swap n X c r) by lia. ring. }
  assert (Ec : forall j, j < n -> mulf n (mget M') B c j = (/ piv * Y c j)%Qc).
  { intros j Hj. unfold Y. rewrite swp_l. unfold X, mulf. rewrite <- sumn_mul_l. apply sumn_ext. intros k Hk. rewrite HM by assumption. rewrite Nat.eqb_refl. field. exact Hnz. }
  assert (Ei : forall i j, i < n -> j < n -> i <> c -> mulf n (mget M') B i j = (Y i j + - (mget M (swp c r i) c) * (/ piv * Y c j))%Qc).
  { intros i j Hi Hj Hne. unfold Y. rewrite swp_l. unfold X, mulf. rewrite <- !sumn_mul_l, <- sumn_plus. apply sumn_ext. intros k Hk. rewrite HM by assumption. destruct (Nat.eqb_spec i c); [contradiction|]. unfold Qcdiv. ring. }
  rewrite EX. set (Z := upd Y c (fun j => / piv * Y c j)%Qc).
  assert (EZ : laplace n Y = (piv * laplace n Z)%Qc) by (unfold Z; rewrite laplace_scale by exact Hc; rewrite Qcmult_assoc, Qcmult_inv_r by exact Hnz; ring).
  rewrite EZ. rewrite <- (laplace_clear n Z c (fun i => - (mget M (swp c r i) c))%Qc Hc). rewrite Qcmult_assoc. f_equal. apply laplace_ext. intros i j Hi Hj. unfold Z, upd. rewrite Nat.eqb_refl. destruct (Nat.eqb_spec i c) as [->|Hne]; [symmetry; apply Ec; exact Hj|symmetry; apply Ei; assumption].
Qed.
Lemma loop_det n k : forall M c M', c + k = n -> gj_loop n n M (seq c k) = Some M' -> exists d, d <> 0q /\ forall B, laplace n (mulf n (mget M) B) = (d * laplace n (mulf n (mget M') B))%Qc.
Proof.
  induction k as [|k IH]; intros M c M' Hck HL; cbn [seq gj_loop] in HL.
  - injection HL as <-. exists 1q. split; [discriminate|]. intros B. ring.
  - destruct (gj_step n n M c) as [M1|] eqn:E; [|discriminate]. destruct (step_det n M c M1 ltac:(lia) E) as (d & Hd & H1). destruct (IH M1 (S c) M' ltac:(lia) HL) as (d' & Hd' & H2). exists (d * d')%Qc. split; [intros C; apply Qcmult_integral in C; destruct C; contradiction|]. intros B. rewrite H1, H2. ring.
Qed.
Lemma mulf_eye n A i j : j < n -> mulf n A delta i j = A i j.
Proof. intros Hj. unfold mulf. apply (sumn_delta_r n j (fun k => A i k) Hj). Qed.
Lemma stuck_det c : forall n A, c < n -> (forall i k, i < n -> k < c -> A i k = delta i k) -> (forall i, c <= i -> i < n -> A i c = 0q) -> laplace n A = 0q.
Proof.
  induction c as [|c IH]; intros n A Hc HU HZ; [apply laplace_zero_column; [exact Hc|]; intros i Hi; apply HZ; lia|]. destruct n as [|n]; [lia|].
  rewrite laplace_first by (intros i H1 H2; rewrite HU by lia; apply delta_neq; lia). rewrite (IH n (fun r c => A (S r) (S c))); [ring|lia| |].
  - intros i k Hi Hk. rewrite HU by lia. reflexivity.
  - intros i H1 H2. apply HZ; lia.
Qed.
Lemma fail_det n k : forall M c, c + k = n -> gj_loop n n M (seq c k) = None -> unitcols n M c -> laplace n (mget M) = 0q.
Proof.
  induction k as [|k IH]; intros M c Hck HL HU; cbn [seq gj_loop] in HL; [discriminate|]. destruct (gj_step n n M c) as [M1|] eqn:E.
  - destruct (step_det n M c M1 ltac:(lia) E) as (d & Hd & H1). specialize (H1 delta). rewrite (laplace_ext n (mulf n (mget M) delta) (mget M)) in H1 by (intros; apply mulf_eye; assumption). rewrite (laplace_ext n (mulf n (mget M1) delta) (mget M1)) in H1 by (intros; apply mulf_eye; assumption).
    rewrite H1, (IH M1 (S c)); [ring|lia|exact HL|]. apply (gj_step_unit n n M c M1); [lia|lia|exact E|exact HU].
  - unfold gj_step in E. destruct (find _ (seq c (n - c))) as [r|] eqn:F; [discriminate|]. pose proof (find_none _ _ F) as HF. apply (stuck_det c n (mget M)); [lia|exact HU|]. intros i H1 H2. specialize (HF i ltac:(apply in_seq; lia)). apply negb_false_iff, Qceqb_eq in HF. exact HF.
Qed.
Lemma unit_full n M i j : unitcols n M n -> i < n -> j < n -> mget M i j = delta i j.
Proof. intros H Hi Hj. apply H; assumption. Qed.
(** kernel of a function matrix *)
Definition injective_on (n : nat) (A : nat -> nat -> Qc) : Prop := forall z : nat -> Qc, (forall i, i < n -> sumn n (fun j => A i j * z j)%Qc = 0q) -> forall j, j < n -> z j = 0q.
Lemma det_cases n A : (laplace n A = 0q /\ ~ injective_on n A) \/ (laplace n A <> 0q /\ injective_on n A /\ forall B, laplace n (mulf n A B) = (laplace n A * laplace n B)%Qc).
Proof.
  set (M := mk n n A). assert (EM : forall i j, i < n -> j < n -> mget M i j = A i j) by (intros; unfold M; apply mget_mk; assumption). assert (EL : laplace n A = laplace n (mget M)) by (apply laplace_ext; intros; symmetry; apply EM; assumption).
  assert (U0 : unitcols n M 0) by (intros i k _ Hk; lia).
  assert (EK : forall z, kern n n M z <-> forall i, i < n -> sumn n (fun j => A i j * z j)%Qc = 0q).
  { intros z. split; intros H i Hi; rewrite <- (H i Hi); apply sumn_ext; intros j Hj; rewrite EM by assumption; reflexivity. }
  destruct (gj_loop n n M (seq 0 n)) as [M'|] eqn:E.
  - right. destruct (loop_det n n M 0 M' ltac:(lia) E) as (d & Hd & HB). destruct (gj_loop_spec n n M n 0 M' (le_n n) ltac:(lia) (wf_mk n n A) E U0) as (_ & HU & HK).
    assert (G : forall B, laplace n (mulf n A B) = (d * laplace n B)%Qc).
    { intros B. rewrite (laplace_ext n (mulf n A B) (mulf n (mget M) B)) by (intros i j Hi Hj; unfold mulf; apply sumn_ext; intros k Hk; rewrite EM by assumption; reflexivity). rewrite HB. f_equal. apply laplace_ext. intros i j Hi Hj. unfold mulf. rewrite <- (sumn_delta_l n i (fun k => B k j) Hi). apply sumn_ext. intros k Hk. rewrite (unit_full n M' i k HU Hi Hk). reflexivity. }
    assert (ED : laplace n A = d) by (rewrite (laplace_ext n A (mulf n A delta)) by (intros; symmetry; apply mulf_eye; assumption); rewrite G, laplace_eye; ring).
    split; [rewrite ED; exact Hd|]. split; [|intros B; rewrite G, ED; reflexivity]. intros z Hz j Hj. apply EK in Hz. apply HK in Hz. specialize (Hz j Hj). rewrite <- Hz. symmetry. rewrite <- (sumn_delta_l n j z Hj). apply sumn_ext. intros k Hk. rewrite (unit_full n M' j k HU Hj Hk). reflexivity.
  - left. split; [rewrite EL; apply (fail_det n n M 0); [lia|exact E|exact U0]|]. destruct (gj_loop_fail n n M n 0 (le_n n) ltac:(lia) E U0) as (z & _ & (j & Hj & Hzj) & Hz). intros C. apply Hzj. apply (C z); [|exact Hj]. apply EK. exact Hz.
Qed.
Lemma det_injective n A : laplace n A <> 0q <-> injective_on n A.
Proof. destruct (det_cases n A) as [[H1 H2]|(H1 & H2 & _)]; split; intros H; try contradiction; assumption. Qed.
Lemma mulf_apply n A B z i : sumn n (fun j => mulf n A B i j * z j)%Qc = sumn n (fun k => A i k * sumn n (fun j => B k j * z j))%Qc.
Proof.
  unfold mulf. transitivity (sumn n (fun j => sumn n (fun k => A i k * B k j * z j)%Qc)); [apply sumn_ext; intros j Hj; rewrite <- sumn_mul_r; reflexivity|]. rewrite sumn_swap. apply sumn_ext. intros k Hk. rewrite <- sumn_mul_l. apply sumn_ext. intros j Hj. ring.
Qed.
(** an injective matrix reaches every vector *)
Lemma injective_onto n A : 0 < n -> injective_on n A -> forall b : nat -> Qc, exists x, forall i, i < n -> sumn n (fun j => A i j * x j)%Qc = b i.
Proof.
  intros Hn HI b. assert (HN : nonsingular n (mk n n A)). { intros z Hz. apply HI. intros i Hi. rewrite <- (Hz i Hi). apply sumn_ext. intros j Hj. rewrite mget_mk by assumption. reflexivity. }
  destruct (solve_complete n 1 (mk n n A) (mk n 1 (fun i _ => b i)) Hn (wf_mk n n A) (wf_mk n 1 _) HN) as (X & EX). destruct (solve_spec n 1 _ _ X Hn (wf_mk n n A) (wf_mk n 1 _) EX) as (_ & _ & HS).
  exists (fun j => mget X j 0). intros i Hi. specialize (HS i 0 Hi ltac:(lia)). rewrite mget_mk in HS by lia. rewrite <- HS. apply sumn_ext. intros j Hj. rewrite mget_mk by assumption. reflexivity.
Qed.
Lemma laplace_mul n A B : laplace n (mulf n A B) = (laplace n A * laplace n B)%Qc.
Proof.
  destruct (det_cases n A) as [[H1 H2]|(_ & _ & H3)]; [|apply H3]. rewrite H1. replace (0 * laplace n B)%Qc with 0q by ring. destruct (Qc_eq_dec (laplace n (mulf n A B)) 0q) as [E|E]; [exact E|exfalso]. apply H2.
  destruct (Nat.eq_dec n 0) as [->|Hn]; [intros z Hz j Hj; lia|]. apply det_injective in E. assert (HB : injective_on n B). { intros z Hz j Hj. apply (E z); [|exact Hj]. intros i Hi. rewrite mulf_apply. apply sumn_0. intros k Hk. rewrite Hz by exact Hk. ring. }
  intros z Hz j Hj. destruct (injective_onto n B ltac:(lia) HB z) as (y & Hy). assert (Y0 : forall j, j < n -> y j = 0q). { apply (E y). intros i Hi. rewrite mulf_apply. rewrite <- (Hz i Hi). apply sumn_ext. intros k Hk. rewrite Hy by exact Hk. reflexivity. }
  rewrite <- Hy by exact Hj. apply sumn_0. intros k Hk. rewrite Y0 by exact Hk. ring.
Qed.
Lemma laplace_mmul n A B : 0 < n -> wf n n A -> wf n n B -> laplace n (mget (mmul A B)) = (laplace n (mget A) * laplace n (mget B))%Qc.
Proof. intros Hn HA HB. rewrite <- laplace_mul. apply laplace_ext. intros i j Hi Hj. rewrite (mget_mmul n n n) by assumption. reflexivity. Qed.
Lemma laplace_mpow n A k : 0 < n -> wf n n A -> laplace n (mget (mpow A k)) = Qcpower (laplace n (mget A)) k.
Proof.
  intros Hn HA. induction k as [|k IH].
  - change (Qcpower (laplace n (mget A)) 0) with 1q. rewrite <- (laplace_eye n). apply laplace_ext. intros i j Hi Hj. unfold mpow. cbn. rewrite (wf_nrows _ _ _ HA). apply mget_eye; assumption.
  - rewrite (mpow_S_l n) by assumption. rewrite laplace_mmul by (try apply wf_mpow; assumption). rewrite IH. reflexivity.
Qed.
(** relabelling *)
Lemma laplace_relabel n A (s : nat -> nat) : (forall i, i < n -> s i < n) -> (forall i j, i < n -> j < n -> s i = s j -> i = j) -> laplace n (fun i j => A (s i) (s j)) = laplace n A.
Proof.
  intros H1 H2. set (Q := fun i k => delta (s i) k). set (T := fun k j => delta (s j) k).
  assert (E1 : laplace n (mulf n (mulf n Q A) T) = laplace n (fun i j => A (s i) (s j))).
  { apply laplace_ext. intros i j Hi Hj. unfold mulf, Q, T. transitivity (sumn n (fun k => delta (s j) k * A (s i) k)%Qc); [|apply (sumn_delta_l n (s j) (fun k => A (s i) k)); apply H1; exact Hj]. apply sumn_ext. intros k Hk. rewrite (sumn_delta_l n (s i) (fun l => A l k)) by (apply H1; exact Hi). ring. }
  assert (E2 : (laplace n Q * laplace n T)%Qc = 1q).
  { rewrite <- laplace_mul, <- (laplace_eye n). apply laplace_ext. intros i j Hi Hj. unfold mulf, Q, T. rewrite (sumn_delta_l n (s i) (fun k => delta (s j) k)) by (apply H1; exact Hi). destruct (Nat.eq_dec i j) as [->|Hne]; [rewrite !delta_refl; reflexivity|]. rewrite !delta_neq; auto. }
  rewrite <- E1, !laplace_mul. transitivity (laplace n Q * laplace n T * laplace n A)%Qc; [ring|]. rewrite E2. ring.
Qed.
(** ** Size *)
Lemma Qcabs_mul a b : Qcabs (a * b)%Qc = (Qcabs a * Qcabs b)%Qc.
Proof.
  unfold Qcabs. destruct (Qcleb_spec 0 a) as [Ha|Ha], (Qcleb_spec 0 b) as [Hb|Hb]; destruct (Qcleb_spec 0 (a * b)%Qc) as [Hab|Hab]; try ring.
  - exfalso. apply (Qclt_not_le _ _ Hab). replace 0q with (a * 0)%Qc by ring. replace (a * b)%Qc with (b * a)%Qc by ring. replace (a * 0)%Qc with (0 * a)%Qc by ring. apply Qcmult_le_compat_r; assumption.
  - assert (E : (a * b)%Qc = 0q). { apply Qcle_antisym; [|exact Hab]. replace (a * b)%Qc with (b * a)%Qc by ring. replace 0q with (0 * a)%Qc by ring. apply Qcmult_le_compat_r; [apply Qclt_le_weak; exact Hb|exact Ha]. } rewrite E. apply Qcmult_integral in E. destruct E as [->| ->]; ring.
  - assert (E : (a * b)%Qc = 0q). { apply Qcle_antisym; [|exact Hab]. replace 0q with (0 * b)%Qc by ring. apply Qcmult_le_compat_r; [apply Qclt_le_weak; exact Ha|exact Hb]. } rewrite E. apply Qcmult_integral in E. destruct E as [->| ->]; ring.
  - exfalso. apply (Qclt_not_le _ _ Hab). replace (a * b)%Qc with (- a * - b)%Qc by ring. replace 0q with (0 * - b)%Qc by ring. apply Qcmult_le_compat_r; qclra.
Qed.
Lemma Qcabs_sum n f : (Qcabs (sumn n f) <= sumn n (fun i => Qcabs (f i)))%Qc.
Proof.
  induction n as [|n IH]; [apply Qcle_refl|]. cbn [sumn]. apply Qcabs_le. apply Qcabs_le in IH. destruct IH as [I1 I2]. destruct (proj1 (Qcabs_le (f n) (Qcabs (f n))) (Qcle_refl _)) as [J1 J2]. split; qclra.
Qed.
Lemma prod_first_order m (a b : nat -> Qc) : (forall i, (0 <= a i)%Qc) -> (forall i, (0 <= b i)%Qc) ->
  (sumn (S m) (fun i => a i * prodn m (fun k => b (skip i k))) + prodn (S m) b <= prodn (S m) (fun k => b k + a k))%Qc.
Proof.
  intros Ha Hb. induction m as [|m IH].
  - cbn [sumn prodn]. assert (H := Ha 0). assert (H' := Hb 0). apply Qcle_minus_iff. match goal with |- (0 <= ?e)%Qc => replace e with 0q by ring end. apply Qcle_refl.
  - change (sumn (S (S m)) (fun i => a i * prodn (S m) (fun k => b (skip i k)))%Qc) with (sumn (S m) (fun i => a i * prodn (S m) (fun k => b (skip i k))) + a (S m) * prodn (S m) (fun k => b (skip (S m) k)))%Qc.
    rewrite (sumn_ext (S m) (fun i => a i * prodn (S m) (fun k => b (skip i k)))%Qc (fun i => a i * prodn m (fun k => b (skip i k)) * b (S m))%Qc).
    2: { intros i Hi. cbn [prodn]. replace (skip i m) with (S m) by (unfold skip; destruct (Nat.ltb_spec m i); [lia|reflexivity]). ring. }
    rewrite sumn_mul_r. rewrite (prodn_ext (S m) (fun k => b (skip (S m) k)) b) by (intros i Hi; unfold skip; destruct (Nat.ltb_spec i (S m)); [reflexivity|lia]).
    set (Sm := sumn (S m) (fun i => a i * prodn m (fun k => b (skip i k)))%Qc) in *. change (prodn (S (S m)) b) with (prodn (S m) b * b (S m))%Qc. change (prodn (S (S m)) (fun k => b k + a k)%Qc) with (prodn (S m) (fun k => b k + a k) * (b (S m) + a (S m)))%Qc. set (Bm := prodn (S m) b) in *. set (Pm := prodn (S m) (fun k => (b k + a k)%Qc)) in *.
    assert (HS : (0 <= Sm)%Qc) by (apply sumn_nonneg; intros i Hi; apply Qc_mul_nonneg; [apply Ha|apply prodn_nonneg; intros; apply Hb]). apply Qcle_trans with ((Sm + Bm) * (b (S m) + a (S m)))%Qc.
    + apply Qcle_minus_iff. replace ((Sm + Bm) * (b (S m) + a (S m)) + - (Sm * b (S m) + a (S m) * Bm + Bm * b (S m)))%Qc with (Sm * a (S m))%Qc by ring. apply Qc_mul_nonneg; [exact HS|apply Ha].
    + apply Qcmult_le_compat_r; [exact IH|]. specialize (Ha (S m)). specialize (Hb (S m)). qclra.
Qed.
Lemma laplace_bound n : forall A, (Qcabs (laplace n A) <= prodn n (fun i => sumn n (fun j => Qcabs (A i j))))%Qc.
Proof.
  induction n as [|n IH]; intros A; [vm_compute; discriminate|]. cbn [laplace]. eapply Qcle_trans; [apply Qcabs_sum|].
  set (a := fun i => Qcabs (A i 0%nat)). set (b := fun i => sumn n (fun j => Qcabs (A i (S j)))).
  assert (Ha : forall i, (0 <= a i)%Qc) by (intros; apply Qcabs_nonneg). assert (Hb : forall i, (0 <= b i)%Qc) by (intros; apply sumn_nonneg; intros; apply Qcabs_nonneg).
  apply Qcle_trans with (sumn (S n) (fun i => a i * prodn n (fun k => b (skip i k)))%Qc).
  - apply sumn_le. intros i Hi. rewrite !Qcabs_mul. replace (Qcabs (sgn i)) with 1q by (unfold sgn; destruct (Nat.even i); reflexivity). fold (a i). replace (1 * a i * Qcabs (laplace n (drop i A)))%Qc with (Qcabs (laplace n (drop i A)) * a i)%Qc by ring. replace (a i * prodn n (fun k => b (skip i k)))%Qc with (prodn n (fun k => b (skip i k)) * a i)%Qc by ring. apply Qcmult_le_compat_r; [apply (IH (drop i A))|apply Ha].
  - eapply Qcle_trans; [|apply Qcle_trans with (prodn (S n) (fun k => b k + a k)%Qc); [apply (prod_first_order n a b Ha Hb)|]].
    + assert (H : (0 <= prodn (S n) b)%Qc) by (apply prodn_nonneg; intros; apply Hb). qclra.
    + rewrite (prodn_ext (S n) (fun k => b k + a k)%Qc (fun i => sumn (S n) (fun j => Qcabs (A i j)))); [apply Qcle_refl|]. intros i Hi. rewrite sumn_S_front. unfold a, b. ring.
Qed.
