(** L_Classic: binomial coefficients and polynomials. *)
From Verif Require Import S_Gen M_Generators S_Gen2 L_Gen1 L_Gen2 L_Gen5 L_Sens.
Notation qpow := M_Generators.qpow.

(** * Binomial coefficients *)
Lemma binom_absorb n k : S k * binom n (S k) = (n - k) * binom n k.
Proof.
  revert k. induction n as [|n IH]; intros k; [destruct k; cbn; lia|].
  change (binom (S n) (S k)) with (binom n k + binom n (S k)). destruct k as [|k].
  - rewrite !binom_0. specialize (IH 0). rewrite binom_0 in IH. lia.
  - change (binom (S n) (S k)) with (binom n k + binom n (S k)).
    pose proof (IH k). pose proof (IH (S k)). 
    destruct (Nat.le_gt_cases n k) as [L|L].
    + rewrite (binom_gt n (S k)) in * by lia. rewrite (binom_gt n (S (S k))) in * by lia.
      replace (S n - S k) with 0 by lia. lia.
    + replace (S n - S k) with (n - k) by lia. replace (n - k) with (S (n - S k)) in * by lia. nia.
Qed.
Lemma binom_diag n : binom n n = 1.
Proof. induction n as [|n IH]; [reflexivity|]. change (binom (S n) (S n)) with (binom n n + binom n (S n)). rewrite IH, binom_gt; lia. Qed.
Lemma binom_sym n : forall k, k <= n -> binom n (n - k) = binom n k.
Proof.
  induction n as [|n IH]; intros k H; [replace k with 0 by lia; reflexivity|].
  destruct k as [|k]; [rewrite Nat.sub_0_r, binom_diag, binom_0; reflexivity|].
  replace (S n - S k) with (n - k) by lia. change (binom (S n) (S k)) with (binom n k + binom n (S k)).
  destruct (Nat.eq_dec k n) as [->|N]; [rewrite Nat.sub_diag, binom_0, binom_diag, binom_gt; lia|].
  replace (n - k) with (S (n - S k)) by lia. change (binom (S n) (S (n - S k))) with (binom n (n - S k) + binom n (S (n - S k))).
  rewrite (IH (S k)) by lia. replace (S (n - S k)) with (n - k) by lia. rewrite IH by lia. lia.
Qed.
Lemma binom_pos n k : k <= n -> 0 < binom n k.
Proof.
  revert k. induction n as [|n IH]; intros k H; [replace k with 0 by lia; cbn; lia|].
  destruct k as [|k]; [cbn; lia|]. change (binom (S n) (S k)) with (binom n k + binom n (S k)). specialize (IH k ltac:(lia)). lia.
Qed.
Lemma vandermonde m n : forall r, sumn (S r) (fun k => Qcn (binom m k) * Qcn (binom n (r - k)))%Qc = Qcn (binom (m + n) r).
Proof.
  induction m as [|m IH]; intros r.
  - rewrite sumn_S_front. rewrite sumn_0; [rewrite Nat.sub_0_r; cbn [binom Nat.add]; rewrite Qcn_1; ring|].
    intros i _. cbn [binom]. rewrite Qcn_0. ring.
  - destruct r as [|r]; [cbn [sumn]; rewrite !binom_0, Qcn_1; ring|].
    rewrite sumn_S_front. rewrite (sumn_ext (S r) _ (fun k => Qcn (binom m k) * Qcn (binom n (r - k)) + Qcn (binom m (S k)) * Qcn (binom n (r - k)))%Qc).
    2:{ intros k _. change (binom (S m) (S k)) with (binom m k + binom m (S k)). replace (S r - S k) with (r - k) by lia. rewrite Qcn_add. ring. }
    rewrite sumn_plus, IH. change (binom (S m + n) (S r)) with (binom (m + n) r + binom (m + n) (S r)). rewrite Qcn_add, <- (IH (S r)).
    rewrite (sumn_S_front (S r)). rewrite !binom_0. rewrite Nat.sub_0_r.
    rewrite (sumn_ext (S r) (fun i => Qcn (binom m (S i)) * Qcn (binom n (S r - S i)))%Qc (fun k => Qcn (binom m (S k)) * Qcn (binom n (r - k)))%Qc) by (intros; reflexivity).
    ring.
Qed.
Lemma binom_squares n : sumn (n + 1) (fun k => Qcn (binom n k) * Qcn (binom n k))%Qc = Qcn (binom (2 * n) n).
Proof.
  replace (2 * n) with (n + n) by lia. rewrite <- vandermonde. replace (n + 1) with (S n) by lia. apply sumn_ext.
  intros k Hk. rewrite binom_sym by lia. reflexivity.
Qed.
Lemma binom_total n : sumn (n + 1) (fun k => Qcn (binom n k)) = qpow two n.
Proof.
  replace two with (1 + 1)%Qc by (apply Qceqb_eq; vm_compute; reflexivity). rewrite <- binomial_theorem. replace (n + 1) with (S n) by lia.
  apply sumn_ext. intros k _. rewrite !qpow_1. ring.
Qed.
Lemma Qcn_absorb n k : k <= n -> (Qcn (S k) * Qcn (binom n (S k)) = (Qcn n - Qcn k) * Qcn (binom n k))%Qc.
Proof.
  intros H. assert (E : (Qcn n - Qcn k)%Qc = Qcn (n - k)) by (replace n with (n - k + k) at 1 by lia; rewrite Qcn_add; ring).
  rewrite E, <- !Qcn_mul. f_equal. apply binom_absorb.
Qed.
Lemma binom_pmf_mean n x : sumn (n + 1) (fun j => binom_pmf n j x * Qcn j)%Qc = (Qcn n * x)%Qc.
Proof.
  destruct n as [|n]; [cbn; rewrite Qcn_0; ring|].
  replace (S n + 1) with (S (S n)) by lia. rewrite sumn_S_front, Qcn_0.
  rewrite (sumn_ext (S n) _ (fun k => Qcn (S n) * x * binom_pmf n k x)%Qc).
  - rewrite sumn_mul_l. pose proof (binom_pmf_sum n x) as B. rewrite Nat.add_1_r in B. rewrite B. ring.
  - intros k Hk. unfold binom_pmf. cbn [M_Generators.qpow]. replace (S n - S k) with (n - k) by lia.
    assert (E : (Qcn (binom (S n) (S k)) * Qcn (S k) = Qcn (S n) * Qcn (binom n k))%Qc).
    { rewrite <- !Qcn_mul. f_equal. change (binom (S n) (S k)) with (binom n k + binom n (S k)). pose proof (binom_absorb n k). nia. }
    transitivity (x * qpow x k * qpow (1 - x) (n - k) * (Qcn (binom (S n) (S k)) * Qcn (S k)))%Qc; [ring|]. rewrite E. ring.
Qed.

Lemma gpow_le_1 t k : (0 <= t)%Qc -> (t <= 1)%Qc -> (qpow t k <= 1)%Qc.
Proof. intros A B. induction k as [|k IH]; cbn [M_Generators.qpow]; [apply Qcle_refl|]. pose proof (L_Gen2.qpow_nonneg t k A). qcnra. Qed.
Lemma abs_neg a : Qcabs (- a) = Qcabs a.
Proof. unfold Qcabs. destruct (Qcleb_spec 0 a), (Qcleb_spec 0 (- a)%Qc); qclra. Qed.
(** * Polynomials with a rational variable *)
Lemma poly_zero n : forall f : nat -> Qc, (forall t, (0 < t)%Qc -> (t <= 1)%Qc -> sumn n (fun j => f j * qpow t j)%Qc = 0q) -> forall j, j < n -> f j = 0q.
Proof.
  induction n as [|n IH]; intros f H j Hj; [lia|].
  assert (E : forall t, (0 < t)%Qc -> (t <= 1)%Qc -> (f 0%nat + t * sumn n (fun j => f (S j) * qpow t j) = 0)%Qc).
  { intros t T0 T1. rewrite <- (H t T0 T1), sumn_S_front, <- sumn_mul_l. cbn [M_Generators.qpow]. f_equal; [ring|].
    apply sumn_ext. intros; ring. }
  assert (F0 : f 0 = 0q).
  { destruct (Qceqb (f 0) 0) eqn:Z; [apply Qceqb_eq, Z|apply Qceqb_neq in Z; exfalso].
    set (B := sumn n (fun j => Qcabs (f (S j)))). assert (HB : (0 <= B)%Qc) by (apply sumn_nonneg; intros; apply Qcabs_nonneg).
    assert (Ha : (0 < Qcabs (f 0%nat))%Qc) by (pose proof (Qcabs_nonneg (f 0%nat)); destruct (Qcle_lt_or_eq _ _ H0) as [X|X]; [exact X|exfalso; apply Z, Qcabs_0; symmetry; exact X]).
    set (a := Qcabs (f 0%nat)) in *. set (t := (a / (a + B + 1))%Qc).
    assert (D : (0 < a + B + 1)%Qc) by qclra.
    assert (Et : (t * (a + B + 1) = a)%Qc) by (assert (NZ : (a + B + 1)%Qc <> 0q) by (intros X; rewrite X in D; discriminate D); unfold t, Qcdiv; rewrite <- Qcmult_assoc, (Qcmult_comm (/ _)), Qcmult_inv_r by exact NZ; ring).
    assert (T0 : (0 < t)%Qc) by (apply Qc_div_pos; assumption).
    assert (T1 : (t <= 1)%Qc) by qcnra.
    assert (G : (Qcabs (sumn n (fun j => f (S j) * qpow t j)) <= B)%Qc).
    { apply Qcle_trans with (sumn n (fun j => Qcabs (f (S j) * qpow t j)%Qc)); [apply abs_sumn|]. apply sumn_le. intros i Hi.
      rewrite abs_mul. pose proof (Qcabs_nonneg (f (S i))). rewrite (Qcabs_eq_nonneg (qpow t i)) by (apply qpow_nonneg, Qclt_le_weak, T0).
      pose proof (gpow_le_1 t i (Qclt_le_weak _ _ T0) T1). qcnra. }
    pose proof (E t T0 T1) as E1. set (s := sumn n (fun j => f (S j) * qpow t j)%Qc) in *.
    assert (a = t * Qcabs s)%Qc.
    { unfold a. assert (X0 : f 0%nat = (t * - s)%Qc) by (transitivity (f 0%nat + t * s + t * - s)%Qc; [ring|rewrite E1; ring]). transitivity (Qcabs (t * - s)); [exact (f_equal Qcabs X0)|]. rewrite abs_mul, (Qcabs_eq_nonneg t), abs_neg by (apply Qclt_le_weak, T0). reflexivity. }
    qcnra. }
  destruct j as [|j]; [exact F0|]. apply (IH (fun j => f (S j))); [|lia]. intros t T0 T1.
  pose proof (E t T0 T1) as E1. rewrite F0 in E1.
  apply (Qc_mul_cancel_r _ _ t); [intros X; rewrite X in T0; discriminate T0|]. transitivity (0 + t * sumn n (fun j => f (S j) * qpow t j))%Qc; [ring|]. rewrite E1. ring.
Qed.
