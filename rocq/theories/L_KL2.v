(** L_KL2: the divergence is the divergence rate between the chain and the lifted aggregation. *)
From Verif Require Export L_KL.
From Coq Require Import Reals Qreals Lra.
Close Scope Q_scope. Close Scope R_scope.
Open Scope nat_scope.

Lemma filter_unique {A} (d : A) (f : A -> bool) : forall l a, a < length l -> (forall b, b < length l -> (f (nth b l d) = true <-> b = a)) -> length (filter f l) = 1.
Proof.
  induction l as [|x l IH]; intros a Ha U; [cbn in Ha; lia|]. cbn [filter]. destruct (f x) eqn:E.
  - assert (a = 0) as -> by (symmetry; apply (U 0 ltac:(cbn; lia)); exact E). cbn [length]. f_equal.
    destruct (filter f l) as [|y r] eqn:F; [reflexivity|]. exfalso. assert (Iy : In y (filter f l)) by (rewrite F; left; reflexivity).
    apply filter_In in Iy. destruct Iy as (Iy & Ey). apply In_nth with (d := d) in Iy. destruct Iy as (b & Hb & Eb).
    pose proof (proj1 (U (S b) ltac:(cbn; lia))) as V. cbn [nth] in V. rewrite Eb in V. specialize (V Ey). discriminate.
  - destruct a as [|a]; [pose proof (proj2 (U 0 ltac:(cbn; lia)) eq_refl) as V; cbn in V; congruence|]. apply (IH a); [cbn in Ha; lia|].
    intros b Hb. pose proof (U (S b) ltac:(cbn; lia)) as V. cbn [nth] in V. rewrite V. split; [intros H; injection H as H; exact H|intros ->; reflexivity].
Qed.

Lemma row_R n M i : stochastic n M -> i < n -> lsumR (map (fun j => Qc2R (mget M i j)) (seq 0 n)) = 1%R.
Proof. intros StM Hi. rewrite <- Qc2R_1, <- (proj2 (proj2 StM) i Hi). symmetry. apply Qc2R_sumn. Qed.

Section RATE.
Variables (n : nat) (P L : mat) (pi : vec).
Hypothesis St : stochastic n P.
Hypothesis Spi : stationary n P pi.
Hypothesis Dpi : distribution n pi.
Hypothesis Sup : forall i j, i < n -> j < n -> (0 < mget P i j)%Qc -> (0 < mget L i j)%Qc.
Let Pos := proj1 (proj2 St).
Definition krate : R := lsumR (map (fun i => Qc2R (vget pi i) * lsumR (map (fun j => alog2 (mget P i j) (mget L i j)) (seq 0 n)))%R (seq 0 n)).
Definition Dk (k i : nat) : R := lsumR (map (fun w => alog2 (path_prob P i w) (path_prob L i w)) (words n k)).
Lemma path_sup : forall w i, i < n -> (forall x, In x w -> x < n) -> (0 < path_prob P i w)%Qc -> (0 < path_prob L i w)%Qc.
Proof.
  induction w as [|x w IH]; intros i Hi Hw H; [exact H|]. cbn [path_prob] in *.
  assert (Hx : x < n) by (apply Hw; left; reflexivity). assert (Hw' : forall y, In y w -> y < n) by (intros y Hy; apply Hw; right; exact Hy).
  pose proof (Pos i x Hi Hx) as A. pose proof (path_nonneg n P St x w Hx Hw') as B.
  destruct (pos_or_0 _ A) as [A'|A']; [|rewrite A' in H; rewrite Qcmult_0_l in H; exfalso; exact (Qclt_irr _ H)].
  destruct (pos_or_0 _ B) as [B'|B']; [|rewrite B' in H; rewrite Qcmult_0_r in H; exfalso; exact (Qclt_irr _ H)].
  apply Qc_mul_pos; [apply Sup; assumption|apply IH; assumption].
Qed.
Lemma Dk_S k i : i < n -> Dk (S k) i = (lsumR (map (fun x => alog2 (mget P i x) (mget L i x)) (seq 0 n)) + lsumR (map (fun x => Qc2R (mget P i x) * Dk k x)%R (seq 0 n)))%R.
Proof.
  intros Hi. unfold Dk at 1. rewrite ls_words, <- ls_plus. apply ls_ext. intros x Hx. apply in_seq0 in Hx. cbn [path_prob].
  rewrite (ls_ext _ _ (fun w => alog2 (mget P i x) (mget L i x) * Qc2R (path_prob P x w) + Qc2R (mget P i x) * alog2 (path_prob P x w) (path_prob L x w))%R).
  - rewrite ls_plus, !ls_mul. f_equal.
    assert (T : lsumR (map (fun w => Qc2R (path_prob P x w)) (words n k)) = 1%R).
    { rewrite <- (map_map (path_prob P x) Qc2R), <- Qc2R_lsum, (path_total n P St) by exact Hx. apply Qc2R_1. }
    rewrite T. lra.
  - intros w Hw. assert (Hy : forall y, In y w -> y < n) by (intros y Hy; eapply words_lt; eassumption).
    rewrite alog2_mul; [lra|apply Pos; assumption|apply (path_nonneg n P St); assumption|apply Sup; assumption|apply path_sup; assumption].
Qed.
Lemma Dk_total k : lsumR (map (fun i => Qc2R (vget pi i) * Dk k i)%R (seq 0 n)) = (INR k * krate)%R.
Proof.
  induction k as [|k IH].
  - rewrite Rmult_0_l. apply ls_0. intros i _. unfold Dk. cbn [words map path_prob]. rewrite alog2_self by (vm_compute; discriminate). cbn. ring.
  - rewrite S_INR, Rmult_plus_distr_r, Rmult_1_l, <- IH, <- (stationary_avg n P pi Spi (Dk k)). unfold krate. rewrite <- ls_plus. apply ls_ext.
    intros i Hi. apply in_seq0 in Hi. rewrite Dk_S by exact Hi. ring.
Qed.
Lemma path_rate k : path_divergence n P L pi (S k) = (INR k * krate)%R.
Proof.
  rewrite <- Dk_total. unfold path_divergence. rewrite ls_words. apply ls_ext. intros i Hi. apply in_seq0 in Hi. cbn [seq_prob]. unfold Dk.
  rewrite <- ls_mul. apply ls_ext. intros w Hw. assert (Hy : forall y, In y w -> y < n) by (intros y Hy; eapply words_lt; eassumption).
  assert (Pi : (0 <= vget pi i)%Qc) by (apply Dpi; exact Hi).
  rewrite alog2_mul; [|exact Pi|apply (path_nonneg n P St); assumption|exact (fun H => H)|apply path_sup; assumption]. rewrite alog2_self by exact Pi. ring.
Qed.
Hypothesis StL : stochastic n L.
Lemma row_ge i : i < n -> (0 <= lsumR (map (fun j => alog2 (mget P i j) (mget L i j)) (seq 0 n)))%R.
Proof.
  intros Hi. apply Rle_trans with (lsumR (map (fun j => (Qc2R (mget P i j) - Qc2R (mget L i j)) * / ln 2)%R (seq 0 n))).
  - rewrite ls_mul_r. unfold Rminus. rewrite ls_plus, ls_opp. rewrite (row_R n P i St Hi), (row_R n L i StL Hi),  Rplus_opp_r, Rmult_0_l. apply Rle_refl.
  - apply ls_le. intros j Hj. apply in_seq0 in Hj. apply alog2_ge; [apply Pos; assumption|apply StL; assumption|apply Sup; assumption].
Qed.
Lemma krate_nonneg : (0 <= krate)%R.
Proof. apply ls_nonneg. intros i Hi. apply in_seq0 in Hi. apply Rmult_le_pos; [apply Qc2R_nonneg, Dpi; exact Hi|apply row_ge; exact Hi]. Qed.
Lemma ls_sub_eq (f g : nat -> R) : (forall j, j < n -> (g j <= f j)%R) -> lsumR (map f (seq 0 n)) = lsumR (map g (seq 0 n)) -> forall j, j < n -> f j = g j.
Proof.
  intros H E j Hj. assert (Z : (f j - g j = 0)%R).
  { apply (ls_zero_inv (seq 0 n) (fun j => f j - g j)%R j).
    - intros y Hy. apply in_seq0 in Hy. specialize (H y Hy). lra.
    - unfold Rminus. rewrite ls_plus, ls_opp. lra.
    - apply in_seq0. exact Hj. }
  lra.
Qed.
Hypothesis Ppi : forall i, i < n -> (0 < vget pi i)%Qc.
Lemma krate_zero : krate = 0%R <-> (forall i j, i < n -> j < n -> mget P i j = mget L i j).
Proof.
  split.
  - intros Z i j Hi Hj.
    assert (Ri : (Qc2R (vget pi i) * lsumR (map (fun j => alog2 (mget P i j) (mget L i j)) (seq 0 n)) = 0)%R).
    { apply (ls_zero_inv (seq 0 n) (fun i => Qc2R (vget pi i) * lsumR (map (fun j => alog2 (mget P i j) (mget L i j)) (seq 0 n)))%R i); [|exact Z|apply in_seq0; exact Hi].
      intros y Hy. apply in_seq0 in Hy. apply Rmult_le_pos; [apply Qc2R_nonneg, Dpi; exact Hy|apply row_ge; exact Hy]. }
    pose proof (Qc2R_pos _ (Ppi i Hi)) as Pp. apply Rmult_integral in Ri. destruct Ri as [Ri|Ri]; [lra|].
    apply alog2_eq; [apply Pos; assumption|apply StL; assumption|apply Sup; assumption|].
    apply Req_le. apply (ls_sub_eq (fun j => alog2 (mget P i j) (mget L i j)) (fun j => (Qc2R (mget P i j) - Qc2R (mget L i j)) / ln 2)%R); [| |exact Hj].
    + intros k Hk. apply alog2_ge; [apply Pos; assumption|apply StL; assumption|apply Sup; assumption].
    + rewrite Ri. unfold Rdiv. rewrite ls_mul_r. unfold Rminus. rewrite ls_plus, ls_opp. rewrite (row_R n P i St Hi), (row_R n L i StL Hi),  Rplus_opp_r, Rmult_0_l. reflexivity.
  - intros H. apply ls_0. intros i Hi. apply in_seq0 in Hi. rewrite ls_0; [ring|]. intros j Hj. apply in_seq0 in Hj. rewrite (H i j Hi Hj). apply alog2_self. apply StL; assumption.
Qed.
End RATE.

Section GRP.
Variables (n : nat) (pi : vec) (phi : groups).
Hypothesis Len : forall v, In v phi -> length v = n.
Hypothesis GG : grouping n (map members phi).
Hypothesis Ppi : forall i, i < n -> (0 < vget pi i)%Qc.
Definition gof (i : nat) : nat := match find (fun a => nth i (nth a phi []) false) (seq 0 (length phi)) with Some a => a | None => 0 end.
Lemma gof_ex i : i < n -> exists a, a < length phi /\ forall b, b < length phi -> (nth i (nth b phi []) false = true <-> b = a).
Proof.
  intros Hi. destruct (proj2 GG i Hi) as (a & Ha & U). rewrite map_length in Ha, U. exists a. split; [exact Ha|]. intros b Hb.
  rewrite <- (U b Hb), members_nth, members_In. reflexivity.
Qed.
Lemma gof_spec i : i < n -> gof i < length phi /\ forall b, b < length phi -> (nth i (nth b phi []) false = true <-> b = gof i).
Proof.
  intros Hi. destruct (gof_ex i Hi) as (a & Ha & U). unfold gof. destruct (find _ _) as [c|] eqn:F.
  - apply find_some in F. destruct F as (Ic & Ec). apply in_seq in Ic. assert (c = a) as -> by (apply U; [lia|exact Ec]). split; assumption.
  - exfalso. pose proof (find_none _ _ F a ltac:(apply in_seq; lia)) as Z. cbn in Z. rewrite (proj2 (U a Ha) eq_refl) in Z. discriminate.
Qed.
Lemma gof_lt i : i < n -> gof i < length phi. Proof. intros Hi. apply gof_spec. exact Hi. Qed.
Lemma gof_in i : i < n -> In i (members (nth (gof i) phi [])).
Proof. intros Hi. apply members_In. apply (gof_spec i Hi); [apply gof_lt; exact Hi|reflexivity]. Qed.
Lemma in_gof i a : a < length phi -> In i (members (nth a phi [])) -> i < n /\ gof i = a.
Proof.
  intros Ha Hi. assert (L : i < n). { pose proof (members_lt _ _ Hi) as L. rewrite Len in L by (apply nth_In; exact Ha). exact L. }
  split; [exact L|]. symmetry. apply (gof_spec i L); [exact Ha|]. apply members_In. exact Hi.
Qed.
Lemma gcols : cols_ok n phi.
Proof. intros v Iv. split; [apply Len; exact Iv|]. apply (proj1 GG). apply in_map. exact Iv. Qed.
Lemma gcovers : covers n phi.
Proof. intros i Hi. destruct (gof_ex i Hi) as (a & Ha & U). exact (filter_unique [] (fun v => nth i v false) phi a Ha U). Qed.
Lemma gmass i : i < n -> (0 < mass pi (members (nth (gof i) phi [])))%Qc.
Proof. intros Hi. apply (mass_pos n pi Ppi); apply gcols, nth_In, gof_lt; exact Hi. Qed.
Lemma pick i (f : nat -> Qc) : i < n -> sumn (length phi) (fun a => M_Aggregate.ind (nth i (nth a phi []) false) * f a)%Qc = f (gof i).
Proof.
  intros Hi. destruct (gof_spec i Hi) as (Ha & U). rewrite (sumn_single _ _ (gof i) Ha).
  - rewrite (proj2 (U _ Ha) eq_refl). unfold M_Aggregate.ind. ring.
  - intros b Hb Nb. destruct (nth i (nth b phi []) false) eqn:E; [apply U in E; [contradiction|exact Hb]|]. unfold M_Aggregate.ind. ring.
Qed.
Lemma super_q_val q i j : i < n -> j < n -> super_q phi q i j = mget q (gof i) (gof j).
Proof.
  intros Hi Hj. unfold super_q. rewrite <- (pick j (fun b => mget q (gof i) b) Hj). apply sumn_ext. intros b Hb.
  rewrite <- (pick i (fun a => mget q a b) Hi). ring.
Qed.
Lemma super_pi_val j : j < n -> super_pi n pi phi j = mass pi (members (nth (gof j) phi [])).
Proof.
  intros Hj. unfold super_pi. rewrite <- (pick j (fun a => mass pi (members (nth a phi []))) Hj). apply sumn_ext. intros a Ha.
  unfold mass. rewrite <- (ind_sum n (nth a phi []) (vget pi)) by (apply Len, nth_In; exact Ha).
  rewrite (Qcmult_comm (M_Aggregate.ind (nth j _ false))). f_equal. apply sumn_ext. intros i _. ring.
Qed.
Lemma group_total (f : nat -> nat -> Qc) : sumn n (fun j => f (gof j) j) = sumn (length phi) (fun b => lsum (map (f b) (members (nth b phi [])))).
Proof.
  rewrite <- (cover_sum n phi (fun j => f (gof j) j) Len gcovers). apply sumn_ext. intros b Hb. apply lsum_map_ext. intros j Hj.
  destruct (in_gof j b Hb Hj) as (_ & ->). reflexivity.
Qed.
Lemma lifted_val q L : lifted n pi (map members phi) q L -> forall i j, i < n -> j < n ->
  mget L i j = (mget q (gof i) (gof j) * (vget pi j / mass pi (members (nth (gof j) phi []))))%Qc.
Proof.
  intros (_ & H) i j Hi Hj. rewrite map_length in H. rewrite (H (gof i) (gof j) i j), members_nth; [reflexivity|apply gof_lt; exact Hi|apply gof_lt; exact Hj| |];
    rewrite members_nth; apply gof_in; assumption.
Qed.
Lemma lifted_stochastic q L : lifted n pi (map members phi) q L -> stochastic (length phi) q -> stochastic n L.
Proof.
  intros Lf (Wq & Pq & Sq). split; [exact (proj1 Lf)|]. split.
  - intros i j Hi Hj. rewrite (lifted_val q L Lf i j Hi Hj). apply Qc_mul_nonneg; [apply Pq; apply gof_lt; assumption|]. apply Qc_div_nonneg; [apply Qclt_le_weak, Ppi; exact Hj|apply gmass; exact Hj].
  - intros i Hi. rewrite (sumn_ext _ _ (fun j => mget q (gof i) (gof j) * (vget pi j / mass pi (members (nth (gof j) phi []))))%Qc) by (intros j Hj; apply lifted_val; assumption).
    rewrite (group_total (fun b j => mget q (gof i) b * (vget pi j / mass pi (members (nth b phi []))))%Qc).
    rewrite <- (Sq (gof i) (gof_lt i Hi)). apply sumn_ext. intros b Hb.
    assert (M : (0 < mass pi (members (nth b phi [])))%Qc) by (apply (mass_pos n pi Ppi); apply gcols, nth_In; exact Hb).
    rewrite (lsum_map_ext _ (fun j => mget q (gof i) b / mass pi (members (nth b phi [])) * vget pi j)%Qc) by (intros j _; unfold Qcdiv; ring).
    rewrite lsum_map_mul_l. change (lsum (map (vget pi) (members (nth b phi [])))) with (mass pi (members (nth b phi []))).
    unfold Qcdiv. rewrite <- Qcmult_assoc, (Qcmult_comm (/ _)), Qcmult_inv_r, Qcmult_1_r; [reflexivity|]. intros Z. rewrite Z in M. exact (Qclt_irr _ M).
Qed.
Lemma lifted_sup P q L : lifted n pi (map members phi) q L ->
  (forall i j, i < n -> j < n -> (0 < mget P i j)%Qc -> (0 < mget q (gof i) (gof j))%Qc) ->
  forall i j, i < n -> j < n -> (0 < mget P i j)%Qc -> (0 < mget L i j)%Qc.
Proof.
  intros Lf H i j Hi Hj Hp. rewrite (lifted_val q L Lf i j Hi Hj). apply Qc_mul_pos; [apply H; assumption|]. apply Qc_div_pos; [apply Ppi; exact Hj|apply gmass; exact Hj].
Qed.
Lemma kl_krate P q L : stochastic n P -> stationary n P pi -> lifted n pi (map members phi) q L ->
  (forall a b, a < length phi -> b < length phi -> (0 <= mget q a b)%Qc) ->
  (forall i j, i < n -> j < n -> (0 < mget P i j)%Qc -> (0 < mget q (gof i) (gof j))%Qc) ->
  kl_divergence P pi phi q = krate n P L pi.
Proof.
  intros St Spi Lf Pq Sup. unfold kl_divergence. rewrite (wf_nrows _ _ _ (proj1 St)). cbv zeta. rewrite !totR_ls.
  set (psi := fun j => ((ln (Qc2R (vget pi j)) - ln (Qc2R (mass pi (members (nth (gof j) phi []))))) / ln 2)%R).
  assert (U : lsumR (map (fun i => Qc2R (vget pi i) * num_log2 (vget pi i) (super_pi n pi phi i))%R (seq 0 n)) = lsumR (map (fun j => Qc2R (vget pi j) * psi j)%R (seq 0 n))).
  { apply ls_ext. intros j Hj. apply in_seq0 in Hj. rewrite super_pi_val by exact Hj. pose proof (Ppi j Hj) as Pj. pose proof (gmass j Hj) as Mj.
    rewrite num_log2_val by (try (apply Qclt_le_weak; assumption); intros; assumption). rewrite alog2_pos by assumption. reflexivity. }
  rewrite U, <- (stationary_avg n P pi Spi psi). unfold krate.
  assert (T : forall A B C : R, A = (C + B)%R -> (A - B)%R = C) by (intros; lra). apply T. rewrite <- ls_plus. apply ls_ext. intros i Hi. apply in_seq0 in Hi.
  rewrite <- Rmult_plus_distr_l, totR_ls, <- ls_plus. f_equal. apply ls_ext. intros j Hj. apply in_seq0 in Hj.
  rewrite super_q_val by assumption. pose proof (proj1 (proj2 St) i j Hi Hj) as Pp.
  rewrite num_log2_val; [|exact Pp|apply Pq; apply gof_lt; assumption|apply Sup; assumption].
  destruct (pos_or_0 _ Pp) as [Pij|E].
  - pose proof (Sup i j Hi Hj Pij) as Qij. pose proof (lifted_sup P q L Lf Sup i j Hi Hj Pij) as Lij. rewrite !alog2_pos by assumption.
    rewrite (lifted_val q L Lf i j Hi Hj). pose proof (Ppi j Hj) as Pj. pose proof (gmass j Hj) as Mj.
    rewrite Qc2R_mul, kl_div by (intros Z; rewrite Z in Mj; exact (Qclt_irr _ Mj)).
    rewrite ln_mult, ln_div_R; try (apply Qc2R_pos; assumption); [unfold psi, Rdiv; ring|]. apply Rdiv_lt_0_compat; apply Qc2R_pos; assumption.
  - rewrite E, !alog2_0, Qc2R_0. ring.
Qed.
End GRP.
