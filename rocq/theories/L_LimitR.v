(** L_LimitR: consequences of the limit theorems for the modelled functions, and refutations. *)
From Verif Require Export L_Limit3 L_Ergodic L_HitP L_HitT L_Visits L_Nnls L_MeasuresR ExL.
From Verif Require Import L_Struct3.
Open Scope nat_scope.
Open Scope res_scope.

Lemma ergodic_is_regular n m : env_ok n m -> is_ergodic m = Ok (is_regular (en_p m)).
Proof.
  intros H. pose proof H as (Hn & St & _). destruct (is_ergodic_spec n m H) as (b & E & Hb). rewrite E. f_equal. apply eq_true_iff_eq.
  rewrite Hb, (is_regular_spec n (en_p m) Hn St). apply regular_ergodic; assumption.
Qed.
Lemma redistribute_tends n m x : env_ok n m -> ergodic n (en_p m) -> distribution n x ->
  exists pi, stationary_distributions (en_p m) (en_comps m) = Ok [pi] /\ length pi = n /\
  forall eps, (0 < eps)%Qc -> exists N, forall steps, N <= steps -> exists y, redistribute_last (en_p m) steps x = Ok y /\
    forall j, j < n -> (Qcabs (vget y j - vget pi j) < eps)%Qc.
Proof.
  intros H Er Dx. pose proof H as (Hn & St & _ & _ & Nx). destruct (env_irr n m H Er) as [_ Irr].
  destruct (pi_unique n (en_p m) (en_comps m) ltac:(lia) St Irr ltac:(apply Nx)) as (pi & E & Pok & U).
  destruct (ergodic_pi n m H Irr) as (pi' & E' & D & S0 & _). assert (pi' = pi) as -> by (apply U; assumption).
  exists pi. split; [exact E|]. split; [apply D|]. intros eps He.
  pose proof (l1_tends n (en_p m) pi x Hn St Er D S0 Dx eps He) as (N & HN). exists (S N). intros steps Hs.
  destruct (redistribute_spec n (en_p m) steps x ltac:(lia) St Dx ltac:(lia)) as (l & _ & _ & El & Hl). exists (nth steps l []). split; [exact El|].
  intros j Hj. destruct (Hl steps (le_n _)) as [_ V]. rewrite (V j Hj). specialize (HN steps ltac:(lia)). eapply Qcle_lt_trans; [|exact HN].
  eapply Qcle_trans; [|apply (proj1 (Qcabs_le _ _) (Qcle_refl _))]. replace (l1_after n (en_p m) x pi steps - 0)%Qc with (l1_after n (en_p m) x pi steps) by ring. unfold l1_after.
  apply (sumn_term_le n (fun j => Qcabs (step_dist n (en_p m) x steps j - vget pi j))%Qc j Hj). intros i Hi. apply Qcabs_nonneg.
Qed.
Lemma stay_low n P i t : stochastic n P -> i < n -> (1 - Qcn t * (1 - mget P i i) <= kstep n P t i i)%Qc.
Proof.
  intros St Hi. induction t as [|t IH].
  - rewrite kstep_0, delta_refl, Qcn_0. apply Qcleb_le. replace (1 - 0 * (1 - mget P i i))%Qc with 1q by ring. reflexivity.
  - rewrite kstep_S_r by assumption. apply Qcle_trans with (kstep n P t i i * mget P i i)%Qc.
    + assert (K1 : (kstep n P t i i <= 1)%Qc).
      { assert (E : sumn n (kstep n P t i) = 1q) by exact (kstep_sum n P t St i Hi). rewrite <- E. apply (sumn_term_le n (kstep n P t i) i Hi). intros j Hj. apply kstep_nonneg; [apply St|exact Hi|exact Hj]. }
      assert (P1 : (mget P i i <= 1)%Qc) by (rewrite <- (st_row n P i St Hi); apply (sumn_term_le n (mget P i) i Hi); intros j Hj; apply St; assumption). rewrite Qcn_S. set (k := kstep n P t i i) in *. set (p := mget P i i) in *. set (q := Qcn t) in *.
      assert (M : (0 <= (1 - k) * (1 - p))%Qc) by (apply Qc_mul_nonneg; qclra).
      replace (k * p)%Qc with (k - (1 - p) + (1 - k) * (1 - p))%Qc by ring. replace (1 - (1 + q) * (1 - p))%Qc with (1 - q * (1 - p) - (1 - p))%Qc by ring. qclra.
    + apply (sumn_term_le n (fun x => kstep n P t i x * mget P x i)%Qc i Hi). intros j Hj. apply Qc_mul_nonneg; [apply kstep_nonneg; [apply St|exact Hi|exact Hj]|apply St; assumption].
Qed.
Lemma mixing_none_refuted : exists n m x pi, env_ok n m /\ ergodic n (en_p m) /\ distribution n x /\ distribution n pi /\ stationary n (en_p m) pi /\
  mixing_time m x 1 (Q2Qc (1 # 10)) = Ok None /\ exists t, forall s, t <= s -> (l1_after n (en_p m) x pi s <= Q2Qc (1 # 10))%Qc.
Proof.
  assert (E : env_ok 2 (env cSlow)) by (apply env_b; vm_compute; reflexivity). assert (Er : ergodic 2 (ch_p cSlow)) by (apply ergodic_b; vm_compute; reflexivity).
  assert (Dx : distribution 2 (qv [1; 0]%Q)) by (apply distributionb_ok; vm_compute; reflexivity). pose proof E as (_ & St & _).
  set (pi := qv [1 # 2; 1 # 2]%Q). assert (D : distribution 2 pi) by (apply distributionb_ok; vm_compute; reflexivity).
  assert (S0 : stationary 2 (ch_p cSlow) pi) by (split; [reflexivity|]; intros [|[|j]] Hj; [| |lia]; apply Qceqb_eq; vm_compute; reflexivity).
  exists 2, (env cSlow), (qv [1; 0]%Q), pi.
  split; [exact E|]. split; [exact Er|]. split; [exact Dx|]. split; [exact D|]. split; [exact S0|]. split.
  - destruct (mixing_time_spec 2 (env cSlow) (qv [1; 0]%Q) 1 (Q2Qc (1 # 10)) E Er Dx (le_n _) ltac:(apply Qcltb_lt; vm_compute; reflexivity)) as (pi' & S1 & D1 & o & Eo & Ho).
    destruct (env_irr 2 _ E Er) as [_ Irr]. destruct (ergodic_pi 2 _ E Irr) as (pi2 & _ & _ & _ & _ & U). assert (pi' = pi) as -> by (rewrite (U pi' D1 S1); symmetry; exact (U pi D S0)).
    rewrite Eo. destruct o as [mt|]; [exfalso|reflexivity]. destruct Ho as (t & Ht & _ & L & _).
    pose proof (stay_low 2 (ch_p cSlow) 0 t St ltac:(lia)) as Low. change (en_p (env cSlow)) with (ch_p cSlow) in L.
    assert (Es : step_dist 2 (ch_p cSlow) (qv [1; 0]%Q) t 0 = kstep 2 (ch_p cSlow) t 0 0).
    { unfold step_dist. rewrite (sumn_single 2 _ 0 ltac:(lia)); [change (vget (qv [1; 0]%Q) 0) with 1q; ring|]. intros [|[|j]] Hj Nj; [contradiction| |lia]. change (vget (qv [1; 0]%Q) 1) with 0q. ring. }
    assert (Term : (Qcabs (kstep 2 (ch_p cSlow) t 0 0 - vget pi 0) <= l1_after 2 (ch_p cSlow) (qv [1; 0]%Q) pi t)%Qc).
    { rewrite <- Es. apply (sumn_term_le 2 (fun j => Qcabs (step_dist 2 (ch_p cSlow) (qv [1; 0]%Q) t j - vget pi j))%Qc 0 ltac:(lia)). intros. apply Qcabs_nonneg. }
    assert (Tq : (Qcn t <= Qcn 99)%Qc) by (apply Qcn_le; lia).
    assert (C : (kstep 2 (ch_p cSlow) t 0 0 - vget pi 0 <= Q2Qc (1 # 10))%Qc) by (apply Qcle_trans with (2 := L); eapply Qcle_trans; [|exact Term]; apply (proj1 (Qcabs_le _ _) (Qcle_refl _))).
    assert (N99 : Qcn 99 = Q2Qc (99 # 1)) by (apply Qceqb_eq; vm_compute; reflexivity). rewrite N99 in Tq.
    assert (Pe : (1 - mget (ch_p cSlow) 0 0)%Qc = Q2Qc (1 # 1000)) by (apply Qceqb_eq; vm_compute; reflexivity). rewrite Pe in Low.
    assert (Me : (Qcn t * Q2Qc (1 # 1000) <= Q2Qc (99 # 1) * Q2Qc (1 # 1000))%Qc) by (apply Qcmult_le_compat_r; [exact Tq|apply Qcleb_le; vm_compute; reflexivity]).
    assert (Fin : (1 - Q2Qc (99 # 1) * Q2Qc (1 # 1000) - vget pi 0 <= Q2Qc (1 # 10))%Qc) by qclra.
    apply Qcleb_le in Fin. vm_compute in Fin. discriminate.
  - apply (mixing_exists 2 (ch_p cSlow) pi (qv [1; 0]%Q) (Q2Qc (1 # 10)) (le_n _)); try assumption. apply Qcltb_lt. vm_compute. reflexivity.
Qed.
Lemma visits_inf_refuted : exists n m M v, env_ok n m /\ mean_number_visits m = Ok M /\ nth 0 (nth 0 M []) (Some 0q) = None /\
  tends (fun k => visits_after n (en_p m) k 0 0) v.
Proof.
  assert (E : env_ok 2 (env cV1)) by (apply env_b; vm_compute; reflexivity). pose proof E as (_ & St & _).
  destruct (hit_limit 2 (en_p (env cV1)) [0] St) as (h & Th & H1 & _ & H01 & Hpos); [intros x [<-|[]]; lia|].
  exists 2, (env cV1), (ok_or [] (mean_number_visits (env cV1))), (fret 2 (en_p (env cV1)) h 0 / (1 - fret 2 (en_p (env cV1)) h 0))%Qc.
  split; [exact E|]. split; [apply ok_or_eq; vm_compute; reflexivity|]. split; [vm_compute; reflexivity|].
  apply (visits_finite 2 (en_p (env cV1)) 0 St ltac:(lia) h Th H1 H01 Hpos 0); [vm_compute; reflexivity|lia].
Qed.
Lemma visits_zero_refuted : exists n m M, env_ok n m /\ mean_number_visits m = Ok M /\ nth 1 (nth 0 M []) None = Some 0q /\
  grows (fun k => visits_after n (en_p m) k 0 1).
Proof.
  assert (E : env_ok 3 (env cV2)) by (apply env_b; vm_compute; reflexivity). pose proof E as (_ & St & _).
  destruct (hit_limit 3 (en_p (env cV2)) [1] St) as (h & Th & H1 & _ & H01 & Hpos); [intros x [<-|[]]; lia|].
  exists 3, (env cV2), (ok_or [] (mean_number_visits (env cV2))). split; [exact E|]. split; [apply ok_or_eq; vm_compute; reflexivity|]. split; [vm_compute; reflexivity|].
  apply (visits_grow 3 (en_p (env cV2)) 1 St ltac:(lia) h H01 Hpos 0); [vm_compute; reflexivity|lia|].
  apply not_eq_sym, Qclt_not_eq. unfold fret. apply (sumn_pos 3 _ 1 ltac:(lia)).
  - rewrite (H1 1) by (left; reflexivity). apply Qcltb_lt. vm_compute. reflexivity.
  - intros i Hi. apply Qc_mul_nonneg; [apply St; lia|apply H01; exact Hi].
Qed.
