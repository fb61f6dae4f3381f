(** L_Classic5: selection and mutation in the population models. *)
From Verif Require Import S_Gen M_Generators S_Gen2 L_Gen1 L_Gen2 L_GenR L_PropsR L_Classic L_Classic2 L_Classic3 L_Classic4 ExC.
Notation qpow := M_Generators.qpow.
Open Scope res_scope.

Lemma moran_drift n s st c i : population_genetics_model Moran n s 0 0 st = Ok c -> (s < 1)%Qc -> let N := Z.to_nat n in 0 < i < N ->
  exists x, (0 < x)%Qc /\ sumn (N + 1) (fun j => mget (ch_p c) i j * Qcn j)%Qc = (Qcn i - s * x)%Qc.
Proof.
  intros H Hs N Hi. destruct (popgen_inv _ _ _ _ _ _ _ H) as (Hn & S0 & _).
  destruct (moran_valid n s 0 0 st c H (Qclt_le_weak _ _ Hs)) as (_ & _ & P). rewrite P. fold N.
  assert (HN : 2 <= N <= 500) by (unfold N; lia).
  destruct (moran_cells N s HN Hs i Hi) as (U & L & Dg & Z).
  exists (mdown N s i). split.
  - unfold mdown. apply Qc_div_pos; apply Qc_mul_pos; try (apply Qcn_pos; lia). apply den_pos; assumption.
  - rewrite (line_row (N + 1) _ i Qcn (mup N s i) (mdown N s i)) by (assumption || lia). rewrite Qcn_add, Qcn_sub, Qcn_1 by lia.
    unfold mup. fold (mdown N s i). ring.
Qed.
Lemma wf_drift n s st c i : population_genetics_model WrightFisher n s 0 0 st = Ok c -> let N := Z.to_nat n in 0 < i < N ->
  exists x, (0 < x)%Qc /\ sumn (N + 1) (fun j => mget (ch_p c) i j * Qcn j)%Qc = (Qcn i + s * x)%Qc.
Proof.
  intros H N Hi. destruct (popgen_inv _ _ _ _ _ _ _ H) as (Hn & S0 & _).
  destruct (wright_fisher_valid n s 0 0 st c H) as (_ & _ & P). rewrite P. fold N.
  assert (Np : (0 < Qcn N)%Qc) by (apply Qcn_pos; lia). assert (Nz : Qcn N <> 0q) by (apply Qcn_nz; lia).
  set (k := (Qcn i / Qcn N)%Qc). assert (K1 : (k < 1)%Qc) by (apply Qc_div_lt_1; [exact Np|apply Qcn_lt; lia]).
  assert (K0 : (0 < k)%Qc) by (apply Qc_div_pos; [apply Qcn_pos; lia|exact Np]). assert (Ek : (k * Qcn N = Qcn i)%Qc) by (apply Qc_div_mul, Nz).
  assert (E1 : wf_pm N 0 0 i = k) by (unfold wf_pm; fold k; ring).
  assert (Dp : (0 < 1 + k * s)%Qc) by qcnra. assert (Dz : (1 + k * s)%Qc <> 0q) by (intros X; rewrite X in Dp; discriminate).
  set (r := (k * (1 + s) / (1 + k * s))%Qc).
  assert (Er : (r * (1 + k * s) = k * (1 + s))%Qc) by (apply Qc_div_mul, Dz).
  assert (R1 : (r <= 1)%Qc). { destruct (Qclt_le_dec 1 r) as [X|X]; [exfalso|exact X]. assert (T : (k * (1 + s) < r * (1 + k * s))%Qc) by qcnra. rewrite Er in T. qclra. }
  assert (Ep : wf_ps N s 0 0 i = r).
  { unfold wf_ps, wf_den. rewrite E1. replace (k * (1 + s) - k + 1)%Qc with (1 + k * s)%Qc by ring. fold r. unfold Qcmin. destruct (Qcleb_spec r 1); [reflexivity|exfalso; qclra]. }
  rewrite (sumn_ext _ _ (fun j => binom_pmf N j r * Qcn j)%Qc).
  2:{ intros j Hj. unfold wf_raw. rewrite mget_mk by lia. destruct (Nat.eqb_spec i 0); [lia|]. destruct (Nat.eqb_spec i N); [lia|]. rewrite Ep. reflexivity. }
  rewrite binom_pmf_mean. exists (Qcn N * (k * (1 - k)) / (1 + k * s))%Qc. split.
  - apply Qc_div_pos; [|exact Dp]. apply Qc_mul_pos; [exact Np|]. apply Qc_mul_pos; [exact K0|qclra].
  - apply (Qc_mul_cancel_r _ _ (1 + k * s)%Qc Dz). rewrite Qcmult_plus_distr_l, <- (Qcmult_assoc s), Qc_div_mul, <- Qcmult_assoc, Er, <- Ek by exact Dz. ring.
Qed.
Lemma popgen_boundaries model n s u v st c : population_genetics_model model n s u v st = Ok c -> (s <= 1)%Qc -> let N := Z.to_nat n in
  mget (ch_p c) 0 0 = 1q /\ mget (ch_p c) N N = 1q.
Proof.
  intros H Hs N. destruct (popgen_inv _ _ _ _ _ _ _ H) as (Hn & _). assert (HN : 2 <= N) by (unfold N; lia). destruct model.
  - destruct (moran_valid n s u v st c H Hs) as (_ & _ & P). rewrite P. fold N. unfold moran_raw. rewrite !mget_mk by lia. rewrite !Nat.eqb_refl.
    destruct (Nat.eqb_spec N 0); [lia|]. split; [reflexivity|apply delta_refl].
  - destruct (wright_fisher_valid n s u v st c H) as (_ & _ & P). rewrite P. fold N. unfold wf_raw. rewrite !mget_mk by lia. rewrite !Nat.eqb_refl.
    destruct (Nat.eqb_spec N 0); [lia|]. split; [reflexivity|apply delta_refl].
Qed.
Lemma direction_refuted : exists n s c c' i, population_genetics_model Moran n s 0 0 None = Ok c /\ population_genetics_model WrightFisher n s 0 0 None = Ok c' /\
  0 < i < Z.to_nat n /\ (sumn (Z.to_nat n + 1) (fun j => mget (ch_p c) i j * Qcn j) < Qcn i)%Qc /\
  (Qcn i < sumn (Z.to_nat n + 1) (fun j => mget (ch_p c') i j * Qcn j))%Qc.
Proof.
  set (s := Q2Qc (1 # 2)).
  exists 3%Z, s, (built (population_genetics_model Moran 3 s 0 0 None)), (built (population_genetics_model WrightFisher 3 s 0 0 None)), 1.
  assert (A : population_genetics_model Moran 3 s 0 0 None = Ok (built (population_genetics_model Moran 3 s 0 0 None))) by (apply built_ok; vm_compute; reflexivity).
  assert (B : population_genetics_model WrightFisher 3 s 0 0 None = Ok (built (population_genetics_model WrightFisher 3 s 0 0 None))) by (apply built_ok; vm_compute; reflexivity).
  split; [exact A|]. split; [exact B|]. split; [cbn; lia|]. assert (S0 : (0 < s)%Qc) by reflexivity. split.
  - destruct (moran_drift 3 s None _ 1 A ltac:(reflexivity) ltac:(cbn; lia)) as (x & X & E). rewrite E. qcnra.
  - destruct (wf_drift 3 s None _ 1 B ltac:(cbn; lia)) as (x & X & E). rewrite E. qcnra.
Qed.
Lemma mutation_refuted : exists n s u v c, (0 < u)%Qc /\ (0 < v)%Qc /\ population_genetics_model Moran n s u v None = Ok c /\
  mget (ch_p c) 0 1 <> moran_up (Z.to_nat n) 0 s u v /\ ~ irreducible (Z.to_nat n + 1) (edge (ch_p c)).
Proof.
  set (u := Q2Qc (1 # 10)). set (r := population_genetics_model Moran 2 0 u u None).
  assert (A : r = Ok (built r)) by (apply built_ok; vm_compute; reflexivity).
  exists 2%Z, 0q, u, u, (built r). split; [reflexivity|]. split; [reflexivity|]. split; [exact A|]. split.
  - apply Qceqb_neq. vm_compute. reflexivity.
  - intros I. destruct (I 0 1 ltac:(cbn; lia) ltac:(cbn; lia)) as (k & W).
    assert (Z : forall k a b, walk 3 (edge (ch_p (built r))) k a b -> a = 0 -> b = 0).
    { induction 1 as [a Ha|k0 a c b Ha Hc He W0 IH]; intros E; [exact E|]. apply IH. subst a. unfold edge in He.
      destruct c as [|[|[|c]]]; [reflexivity| | |lia]; exfalso; vm_compute in He; discriminate. }
    specialize (Z k 0 1 W eq_refl). discriminate.
Qed.
