(** L_KL3: the divergence of the aggregated matrix is the smallest possible for its groups. *)
From Verif Require Export L_KL2.
From Coq Require Import Reals Qreals Lra.
Close Scope Q_scope. Close Scope R_scope.
Open Scope nat_scope.

Lemma lsum_map_pos {A} (f : A -> Qc) l x : (forall y, In y l -> (0 <= f y)%Qc) -> In x l -> (0 < f x)%Qc -> (0 < lsum (map f l))%Qc.
Proof.
  induction l as [|a l IH]; intros H Ix Px; [destruct Ix|]. cbn [map]. rewrite lcons.
  assert (R : (0 <= lsum (map f l))%Qc) by (apply lsum_nonneg; intros y Iy; apply in_map_iff in Iy; destruct Iy as (z & <- & Iz); apply H; right; exact Iz).
  pose proof (H a (or_introl eq_refl)) as Ha. destruct Ix as [->|Ix]; [qclra|]. pose proof (IH (fun y Hy => H y (or_intror Hy)) Ix Px). qclra.
Qed.

Lemma Qceq_le a b : a = b -> (a <= b)%Qc.
Proof. intros ->. apply Qcle_refl. Qed.

Section AGG.
Variables (n : nat) (P : mat) (pi : vec) (phi : groups) (q : mat).
Hypothesis St : stochastic n P.
Hypothesis Dpi : distribution n pi.
Hypothesis Spi : stationary n P pi.
Hypothesis Ppi : forall i, i < n -> (0 < vget pi i)%Qc.
Hypothesis Len : forall v, In v phi -> length v = n.
Hypothesis GG : grouping n (map members phi).
Hypothesis CQ : calc_q P pi phi = Some q.
Local Notation g := (gof phi).
Local Notation M a := (mass pi (members (nth a phi []))).
Lemma agg_of : aggregated P pi (map members phi) q.
Proof. destruct (calc_q_some n P pi (proj1 St) Ppi phi (gcols n phi Len GG)) as (q' & E & A). rewrite CQ in E. injection E as ->. exact A. Qed.
Lemma agg_val a b : a < length phi -> b < length phi -> mget q a b = (flow P pi (members (nth a phi [])) (members (nth b phi [])) / M a)%Qc.
Proof. intros Ha Hb. destruct agg_of as (_ & E). rewrite map_length in E. rewrite E, !members_nth by assumption. reflexivity. Qed.
Lemma agg_st : stochastic (length phi) q.
Proof. exact (aggregated_stochastic n P pi phi q St Ppi (gcols n phi Len GG) (gcovers n phi GG) agg_of). Qed.
Lemma agg_mass a : a < length phi -> (0 < M a)%Qc.
Proof. intros Ha. apply (mass_pos n pi Ppi); apply (gcols n phi Len GG), nth_In; exact Ha. Qed.
Lemma agg_sup i j : i < n -> j < n -> (0 < mget P i j)%Qc -> (0 < mget q (g i) (g j))%Qc.
Proof.
  intros Hi Hj Hp. pose proof (gof_lt n phi GG i Hi) as Ga. pose proof (gof_lt n phi GG j Hj) as Gb. rewrite agg_val by assumption.
  apply Qc_div_pos; [|apply agg_mass; exact Ga]. unfold flow.
  assert (Lt : forall a x, a < length phi -> In x (members (nth a phi [])) -> x < n) by (intros a x Ha Ix; apply (in_gof n phi Len GG x a Ha Ix)).
  assert (In0 : forall x y, x < n -> In y (members (nth (g j) phi [])) -> (0 <= mget P x y)%Qc) by (intros x y Hx Hy; apply (proj1 (proj2 St)); [exact Hx|apply (Lt (g j)); assumption]).
  apply (lsum_map_pos _ _ i).
  - intros y Hy. apply Lt in Hy; [|exact Ga]. apply Qc_mul_nonneg; [apply Qclt_le_weak, Ppi; exact Hy|].
    apply lsum_nonneg. intros z Iz. apply in_map_iff in Iz. destruct Iz as (w & <- & Iw). apply In0; assumption.
  - apply (gof_in n phi GG); exact Hi.
  - apply Qc_mul_pos; [apply Ppi; exact Hi|]. apply (lsum_map_pos _ _ j); [intros y Hy; apply In0; assumption|apply (gof_in n phi GG); exact Hj|exact Hp].
Qed.
Lemma agg_nonneg a b : a < length phi -> b < length phi -> (0 <= mget q a b)%Qc.
Proof. intros. apply agg_st; assumption. Qed.
(** the lifted matrix exists *)
Definition lift (r : mat) : mat := mk n n (fun i j => mget r (g i) (g j) * (vget pi j / M (g j)))%Qc.
Lemma lift_ok r : lifted n pi (map members phi) r (lift r).
Proof.
  split; [apply wf_mk|]. rewrite map_length. intros a b i j Ha Hb Hi Hj. rewrite members_nth in Hi, Hj. rewrite members_nth.
  destruct (in_gof n phi Len GG i a Ha Hi) as (Li & Ei). destruct (in_gof n phi Len GG j b Hb Hj) as (Lj & Ej).
  unfold lift. rewrite mget_mk by assumption. rewrite Ei, Ej. reflexivity.
Qed.
Lemma kl_is_rate L : lifted n pi (map members phi) q L -> kl_divergence P pi phi q = krate n P L pi.
Proof. intros Lf. exact (kl_krate n pi phi Len GG Ppi P q L St Spi Lf agg_nonneg agg_sup). Qed.
Lemma kl_paths L : lifted n pi (map members phi) q L -> forall k, path_divergence n P L pi (S k) = (INR k * kl_divergence P pi phi q)%R.
Proof.
  intros Lf k. rewrite (kl_is_rate L Lf). apply (path_rate n P L pi St Spi Dpi). exact (lifted_sup n pi phi Len GG Ppi P q L Lf agg_sup).
Qed.
Lemma kl_nonneg : (0 <= kl_divergence P pi phi q)%R.
Proof.
  pose proof (lift_ok q) as Lf. rewrite (kl_is_rate _ Lf). apply krate_nonneg; [exact St|exact Dpi| |].
  - exact (lifted_sup n pi phi Len GG Ppi P q _ Lf agg_sup).
  - exact (lifted_stochastic n pi phi Len GG Ppi q _ Lf agg_st).
Qed.
Lemma kl_zero L : lifted n pi (map members phi) q L -> (kl_divergence P pi phi q = 0%R <-> forall i j, i < n -> j < n -> mget P i j = mget L i j).
Proof.
  intros Lf. rewrite (kl_is_rate _ Lf). apply krate_zero; [exact St|exact Dpi| | |exact Ppi].
  - exact (lifted_sup n pi phi Len GG Ppi P q _ Lf agg_sup).
  - exact (lifted_stochastic n pi phi Len GG Ppi q _ Lf agg_st).
Qed.
(** *** Optimality *)
Variable r : mat.
Hypothesis Sr : stochastic (length phi) r.
Hypothesis Supr : forall i j, i < n -> j < n -> (0 < mget P i j)%Qc -> (0 < mget r (g i) (g j))%Qc.
Local Notation h a b := (mget r a b / mget q a b)%Qc.
Lemma inner i a : i < n -> a < length phi ->
  sumn n (fun j => mget P i j * h a (g j))%Qc = sumn (length phi) (fun b => h a b * lsum (map (mget P i) (members (nth b phi []))))%Qc.
Proof.
  intros Hi Ha. rewrite (group_total n phi Len GG (fun b j => mget P i j * h a b)%Qc). apply sumn_ext. intros b Hb.
  rewrite lsum_map_mul_r. ring.
Qed.
Lemma ratio_le : (sumn n (fun i => vget pi i * sumn n (fun j => mget P i j * h (g i) (g j))) <= sumn n (vget pi))%Qc.
Proof.
  rewrite (group_total n phi Len GG (fun a i => vget pi i * sumn n (fun j => mget P i j * h a (g j)))%Qc).
  rewrite <- (cover_sum n phi (vget pi) Len (gcovers n phi GG)). apply sumn_le. intros a Ha.
  rewrite (lsum_map_ext _ (fun i => sumn (length phi) (fun b => h a b * (vget pi i * lsum (map (mget P i) (members (nth b phi []))))))%Qc).
  2:{ intros i Hi. destruct (in_gof n phi Len GG i a Ha Hi) as (Li & _). rewrite inner by assumption. rewrite <- sumn_mul_l. apply sumn_ext. intros b _. ring. }
  rewrite (lsum_map_sumn (fun i b => h a b * (vget pi i * lsum (map (mget P i) (members (nth b phi [])))))%Qc).
  apply Qcle_trans with (sumn (length phi) (fun b => M a * mget r a b)%Qc).
  - apply sumn_le. intros b Hb. rewrite lsum_map_mul_l. fold (flow P pi (members (nth a phi [])) (members (nth b phi []))).
    pose proof (agg_mass a Ha) as Ma. assert (Mn : M a <> 0q) by (intros Z; rewrite Z in Ma; exact (Qclt_irr _ Ma)).
    assert (F : flow P pi (members (nth a phi [])) (members (nth b phi [])) = (mget q a b * M a)%Qc).
    { rewrite agg_val by assumption. unfold Qcdiv. rewrite <- Qcmult_assoc, (Qcmult_comm (/ _)), Qcmult_inv_r by exact Mn. ring. }
    rewrite F. destruct (Qceqb_spec (mget q a b) 0) as [Z|Nz].
    + rewrite Z. unfold Qcdiv. rewrite Qcmult_0_l, Qcmult_0_r. apply Qc_mul_nonneg; [apply Qclt_le_weak; exact Ma|apply Sr; assumption].
    + apply Qceq_le. unfold Qcdiv. rewrite <- Qcmult_assoc, (Qcmult_assoc (/ _)), (Qcmult_comm (/ _)), Qcmult_inv_r by exact Nz. ring.
  - rewrite sumn_mul_l. pose proof (proj2 (proj2 Sr) a Ha) as E. change (sumn (length phi) (fun b => mget r a b)) with (sumn (length phi) (mget r a)) in *. rewrite E.
    apply Qceq_le. unfold mass. ring.
Qed.
Lemma kl_best : (kl_divergence P pi phi q <= kl_divergence P pi phi r)%R.
Proof.
  pose proof (lift_ok q) as Lq. pose proof (lift_ok r) as Lr. rewrite (kl_is_rate _ Lq).
  rewrite (kl_krate n pi phi Len GG Ppi P r _ St Spi Lr (proj1 (proj2 Sr)) Supr). unfold krate.
  set (X := fun i => lsumR (map (fun j => Qc2R (mget P i j) - Qc2R (mget P i j * h (g i) (g j))%Qc)%R (seq 0 n))).
  pose proof ln2_pos as L2. pose proof (Rinv_0_lt_compat _ L2) as I2.
  assert (T : forall i, i < n -> (lsumR (map (fun j => alog2 (mget P i j) (mget (lift q) i j)) (seq 0 n)) + X i * / ln 2 <= lsumR (map (fun j => alog2 (mget P i j) (mget (lift r) i j)) (seq 0 n)))%R).
  { intros i Hi. unfold X. rewrite <- ls_mul_r, <- ls_plus. apply ls_le. intros j Hj. apply in_seq0 in Hj.
    destruct (pos_or_0 _ (proj1 (proj2 St) i j Hi Hj)) as [Pij|E].
    - pose proof (agg_sup i j Hi Hj Pij) as Q1. pose proof (Supr i j Hi Hj Pij) as R1.
      pose proof (lifted_sup n pi phi Len GG Ppi P q _ Lq agg_sup i j Hi Hj Pij) as LQ. pose proof (lifted_sup n pi phi Len GG Ppi P r _ Lr Supr i j Hi Hj Pij) as LR.
      rewrite !alog2_pos by assumption. unfold lift. rewrite !mget_mk by assumption.
      assert (V : (0 < vget pi j / M (g j))%Qc) by (apply Qc_div_pos; [apply Ppi; exact Hj|apply (gmass n pi phi Len GG Ppi); exact Hj]).
      assert (Nq : mget q (g i) (g j) <> 0q) by (intros Z; rewrite Z in Q1; exact (Qclt_irr _ Q1)).
      rewrite !Qc2R_mul, !ln_mult by (apply Qc2R_pos; assumption). rewrite (kl_div (mget r (g i) (g j)) (mget q (g i) (g j)) Nq). apply Qc2R_pos in Pij. apply Qc2R_pos in Q1. apply Qc2R_pos in R1.
      set (p := Qc2R (mget P i j)) in *. set (x := Qc2R (mget q (g i) (g j))) in *. set (y := Qc2R (mget r (g i) (g j))) in *.
      assert (Q : (0 < y / x)%R) by (apply Rdiv_lt_0_compat; assumption). pose proof (ln_le_sub _ Q) as L. rewrite ln_div_R in L by assumption.
      set (z := (y / x)%R) in *. unfold Rdiv. rewrite <- !Rmult_assoc. rewrite <- Rmult_plus_distr_r. apply Rmult_le_compat_r; [lra|]. nra.
    - rewrite E, !alog2_0. rewrite Qcmult_0_l, Qc2R_0. apply Req_le. ring. }
  apply Rle_trans with (lsumR (map (fun i => Qc2R (vget pi i) * lsumR (map (fun j => alog2 (mget P i j) (mget (lift q) i j)) (seq 0 n)) + Qc2R (vget pi i) * X i * / ln 2)%R (seq 0 n))).
  2:{ apply ls_le. intros i Hi. apply in_seq0 in Hi. specialize (T i Hi). pose proof (Qc2R_nonneg _ (proj1 (proj2 Dpi) i Hi)) as Pp.
      rewrite Rmult_assoc, <- Rmult_plus_distr_l. apply Rmult_le_compat_l; assumption. }
  rewrite ls_plus, ls_mul_r.
  assert (Z : (0 <= lsumR (map (fun i => Qc2R (vget pi i) * X i)%R (seq 0 n)))%R).
  { assert (E : lsumR (map (fun i => Qc2R (vget pi i) * X i)%R (seq 0 n)) = (Qc2R (sumn n (vget pi)) - Qc2R (sumn n (fun i => vget pi i * sumn n (fun j => mget P i j * h (g i) (g j)))%Qc))%R).
    { rewrite !Qc2R_sumn. unfold Rminus. rewrite <- ls_opp, <- ls_plus. apply ls_ext. intros i Hi. apply in_seq0 in Hi. unfold X, Rminus. rewrite ls_plus, ls_opp.
      rewrite (row_R n P i St Hi), <- (Qc2R_sumn n (fun j => mget P i j * h (g i) (g j))%Qc), Qc2R_mul. ring. }
    rewrite E. pose proof (Qc2R_le _ _ ratio_le). lra. }
  pose proof (Rmult_le_pos _ _ Z (Rlt_le _ _ I2)). lra.
Qed.
End AGG.
