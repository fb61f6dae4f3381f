(** L_Gen2: urn, population genetics, AR(1) approximations, Dirichlet process,
    merge/lazy/bounded/nth-order chains. *)
From Verif Require Import S_Gen M_Generators S_Gen2 L_Gen1.

(** * Urns *)
Lemma count_lt d i : i <= d -> count d (fun a => Nat.ltb a i) = Qcn i.
Proof.
  intros H. unfold count. replace d with (i + (d - i)) by lia. rewrite sumn_split.
  rewrite (sumn_ext i _ (fun _ => 1q)) by (intros a Ha; destruct (Nat.ltb_spec a i); [reflexivity|lia]).
  rewrite (sumn_0 (d - i)) by (intros a Ha; destruct (Nat.ltb_spec (i + a) i); [lia|reflexivity]).
  rewrite sumn_const_n. ring.
Qed.
Lemma count_nlt d i : i <= d -> count d (fun a => negb (Nat.ltb a i)) = (Qcn d - Qcn i)%Qc.
Proof.
  intros H. assert (E : (count d (fun a => Nat.ltb a i) + count d (fun a => negb (Nat.ltb a i)))%Qc = Qcn d).
  { unfold count. rewrite <- sumn_plus. rewrite (sumn_ext d _ (fun _ => 1q)).
    - rewrite sumn_const_n; ring.
    - intros a _. destruct (Nat.ltb a i); reflexivity. }
  rewrite count_lt in E by exact H. rewrite <- E. ring.
Qed.
Lemma count_ext d c c' : (forall a, a < d -> c a = c' a) -> count d c = count d c'.
Proof. intros H; apply sumn_ext; intros a Ha; rewrite H by exact Ha; reflexivity. Qed.
Lemma count_false d c : (forall a, a < d -> c a = false) -> count d c = 0q.
Proof. intros H; apply sumn_0; intros a Ha; rewrite H by exact Ha; reflexivity. Qed.
Lemma count_true d c : (forall a, a < d -> c a = true) -> count d c = Qcn d.
Proof.
  intros H; unfold count. rewrite (sumn_ext d _ (fun _ => 1q)) by (intros a Ha; rewrite H by exact Ha; reflexivity).
  rewrite sumn_const_n; ring.
Qed.

Lemma count2_split d i c : i <= d ->
  count2 d d c = sumn d (fun a => count d (c a)).
Proof. reflexivity. Qed.

Lemma ehrenfest_eq n i j : 1 <= n -> i < n * 2 + 1 -> j < n * 2 + 1 ->
  mget (mc_urn_model Ehrenfest n) i j = ehrenfest_spec (n * 2) i j.
Proof.
  intros Hn Hi Hj. unfold mc_urn_model, ehrenfest_spec. rewrite mget_mk by assumption. set (d := n * 2) in *.
  assert (Hd : Qcn d <> 0q) by (apply Qc_lt_neq, Qcn_pos; unfold d; lia).
  destruct (Nat.eqb_spec i 0) as [->|Hi0].
  { unfold delta. destruct (Nat.eqb_spec 1 j) as [<-|Hne].
    - rewrite count_true by reflexivity. rewrite Qc_div_self by exact Hd; reflexivity.
    - rewrite count_false by (intros a Ha; destruct (Nat.ltb_spec a 0); [lia|]; apply Nat.eqb_neq; lia).
      unfold Qcdiv; ring. }
  destruct (Nat.eqb_spec i d) as [->|Hid].
  { replace (d + 1 - 2) with (d - 1) by lia. unfold delta. destruct (Nat.eqb_spec (d - 1) j) as [<-|Hne].
    - rewrite count_true. + rewrite Qc_div_self by exact Hd; reflexivity.
      + intros a Ha; destruct (Nat.ltb_spec a d); [|lia]; apply Nat.eqb_refl.
    - rewrite count_false by (intros a Ha; destruct (Nat.ltb_spec a d); [|lia]; apply Nat.eqb_neq; lia).
      unfold Qcdiv; ring. }
  destruct (Nat.eqb_spec (S j) i) as [E|E].
  { rewrite (count_ext d _ (fun a => Nat.ltb a i)).
    - rewrite count_lt by lia; reflexivity.
    - intros a Ha. destruct (Nat.ltb_spec a i); [apply Nat.eqb_eq; lia|apply Nat.eqb_neq; lia]. }
  destruct (Nat.eqb_spec j (S i)) as [E2|E2].
  { rewrite (count_ext d _ (fun a => negb (Nat.ltb a i))).
    - rewrite count_nlt by lia. field; exact Hd.
    - intros a Ha. destruct (Nat.ltb_spec a i); [apply Nat.eqb_neq; lia|apply Nat.eqb_eq; lia]. }
  rewrite count_false by (intros a Ha; destruct (Nat.ltb_spec a i); apply Nat.eqb_neq; lia).
  unfold Qcdiv; ring.
Qed.

Lemma two_eq : two = (1 + 1)%Qc. Proof. reflexivity. Qed.

Lemma bernoulli_laplace_eq n i j : 1 <= n -> i < n * 2 + 1 -> j < n * 2 + 1 ->
  mget (mc_urn_model BernoulliLaplace n) i j = bernoulli_laplace_spec (n * 2) i j.
Proof.
  intros Hn Hi Hj. unfold mc_urn_model, bernoulli_laplace_spec. rewrite mget_mk by assumption. set (d := n * 2) in *.
  assert (Hd : Qcn d <> 0q) by (apply Qc_lt_neq, Qcn_pos; unfold d; lia).
  rewrite (count2_split d i) by lia.
  (* drawing a white ball (a < i) or a black one from the first urn *)
  assert (C : forall (f g : Qc),
    (forall a, a < i -> count d (fun b => Nat.eqb (i - 1 + (if Nat.ltb b (d - i) then 1 else 0)) j) = f) ->
    (i < d -> count d (fun b => Nat.eqb (i - 0 + (if Nat.ltb b (d - i) then 1 else 0)) j) = g) ->
    sumn d (fun a => count d (fun b => Nat.eqb (i - (if Nat.ltb a i then 1 else 0) + (if Nat.ltb b (d - i) then 1 else 0)) j))
     = (Qcn i * f + (Qcn d - Qcn i) * g)%Qc).
  { intros f g Hf Hg. transitivity (sumn (i + (d - i)) (fun a => count d (fun b => Nat.eqb (i - (if Nat.ltb a i then 1 else 0) + (if Nat.ltb b (d - i) then 1 else 0)) j))).
    { f_equal; lia. }
    rewrite sumn_split.
    rewrite (sumn_ext i _ (fun _ => f)) by (intros a Ha; destruct (Nat.ltb_spec a i); [apply (Hf a Ha)|lia]).
    rewrite (sumn_ext (d - i) _ (fun _ => g)) by (intros a Ha; destruct (Nat.ltb_spec (i + a) i); [lia|apply Hg; lia]).
    rewrite !sumn_const_n, Qcn_sub by lia. reflexivity. }
  destruct (Nat.eqb_spec i 0) as [->|Hi0].
  { unfold delta. destruct (Nat.eqb_spec 1 j) as [<-|Hne].
    - rewrite (C 0q (Qcn d)); [|intros; lia|].
      + replace (Qcn 0) with 0q by reflexivity. field. exact Hd.
      + intros _. apply count_true. intros a Ha. destruct (Nat.ltb_spec a (d - 0)); [reflexivity|lia].
    - rewrite (C 0q 0q); [|intros; lia|].
      + unfold Qcdiv; ring.
      + intros _. apply count_false. intros a Ha. destruct (Nat.ltb_spec a (d - 0)); apply Nat.eqb_neq; lia. }
  destruct (Nat.eqb_spec i d) as [->|Hid].
  { replace (d + 1 - 2) with (d - 1) by lia. unfold delta. destruct (Nat.eqb_spec (d - 1) j) as [<-|Hne].
    - rewrite (C (Qcn d) 0q); [|intros a Ha|intros; lia].
      + field. exact Hd.
      + apply count_true. intros b Hb. destruct (Nat.ltb_spec b (d - d)); [lia|]. apply Nat.eqb_eq; lia.
    - rewrite (C 0q 0q); [|intros a Ha|intros; lia].
      + unfold Qcdiv; ring.
      + apply count_false. intros b Hb. destruct (Nat.ltb_spec b (d - d)); [lia|]. apply Nat.eqb_neq; lia. }
  destruct (Nat.eqb_spec (S j) i) as [E|E].
  { rewrite (C (Qcn i) 0q).
    - field. exact Hd.
    - intros a Ha. rewrite (count_ext d _ (fun b => negb (Nat.ltb b (d - i)))).
      + rewrite count_nlt, Qcn_sub by lia. ring.
      + intros b Hb. destruct (Nat.ltb_spec b (d - i)); [apply Nat.eqb_neq; lia|apply Nat.eqb_eq; lia].
    - intros _. apply count_false. intros b Hb. destruct (Nat.ltb_spec b (d - i)); apply Nat.eqb_neq; lia. }
  destruct (Nat.eqb_spec j i) as [E1|E1].
  { rewrite (C (Qcn d - Qcn i)%Qc (Qcn i)).
    - rewrite two_eq. field. exact Hd.
    - intros a Ha. rewrite (count_ext d _ (fun b => Nat.ltb b (d - i))).
      + rewrite count_lt, Qcn_sub by lia. reflexivity.
      + intros b Hb. destruct (Nat.ltb_spec b (d - i)); [apply Nat.eqb_eq; lia|apply Nat.eqb_neq; lia].
    - intros _. rewrite (count_ext d _ (fun b => negb (Nat.ltb b (d - i)))).
      + rewrite count_nlt, Qcn_sub by lia. ring.
      + intros b Hb. destruct (Nat.ltb_spec b (d - i)); [apply Nat.eqb_neq; lia|apply Nat.eqb_eq; lia]. }
  destruct (Nat.eqb_spec j (S i)) as [E2|E2].
  { rewrite (C 0q (Qcn d - Qcn i)%Qc).
    - field. exact Hd.
    - intros a Ha. apply count_false. intros b Hb. destruct (Nat.ltb_spec b (d - i)); apply Nat.eqb_neq; lia.
    - intros _. rewrite (count_ext d _ (fun b => Nat.ltb b (d - i))).
      + rewrite count_lt, Qcn_sub by lia. reflexivity.
      + intros b Hb. destruct (Nat.ltb_spec b (d - i)); [apply Nat.eqb_eq; lia|apply Nat.eqb_neq; lia]. }
  rewrite (C 0q 0q).
  - unfold Qcdiv; ring.
  - intros a Ha. apply count_false. intros b Hb. destruct (Nat.ltb_spec b (d - i)); apply Nat.eqb_neq; lia.
  - intros _. apply count_false. intros b Hb. destruct (Nat.ltb_spec b (d - i)); apply Nat.eqb_neq; lia.
Qed.

Lemma Qc_ratio01 i d : i <= d -> 0 < d -> (0 <= Qcn i / Qcn d /\ Qcn i / Qcn d <= 1)%Qc.
Proof.
  intros H Hd. split; [apply Qc_div_nonneg; [apply Qcn_nonneg|apply Qcn_pos; exact Hd]|].
  apply Qc_div_le_1; [apply Qcn_pos; exact Hd|apply Qcn_le; exact H].
Qed.

Lemma mc_urn_stochastic model n : 1 <= n -> stochastic (n * 2 + 1) (mc_urn_model model n).
Proof.
  intros Hn. split; [apply wf_mk|]. split.
  - intros i j Hi Hj. unfold mc_urn_model. rewrite mget_mk by assumption.
    destruct (Nat.eqb_spec i 0); [apply delta_nonneg|]. destruct (Nat.eqb_spec i (n * 2)); [apply delta_nonneg|].
    destruct (Qc_ratio01 i (n * 2) ltac:(lia) ltac:(lia)) as [A B]. set (x := (Qcn i / Qcn (n * 2))%Qc) in *.
    assert (A' : (0 <= 1 - x)%Qc) by qclra.
    destruct model.
    + destruct (Nat.eqb (S j) i); [apply Qc_mul_nonneg; assumption|].
      destruct (Nat.eqb j i); [apply Qc_mul_nonneg; [apply Qc_mul_nonneg; [discriminate|assumption]|assumption]|].
      destruct (Nat.eqb j (S i)); [apply Qc_mul_nonneg; assumption|discriminate].
    + destruct (Nat.eqb (S j) i); [assumption|]. destruct (Nat.eqb j (S i)); [assumption|discriminate].
  - intros i Hi. unfold mc_urn_model.
    destruct (Nat.eqb_spec i 0) as [E|E].
    { rewrite (sumn_ext _ _ (fun j => delta 1 j)); [apply sumn_delta; lia|].
      intros j Hj. rewrite mget_mk by assumption. subst i. reflexivity. }
    destruct (Nat.eqb_spec i (n * 2)) as [E2|E2].
    { rewrite (sumn_ext _ _ (fun j => delta (n * 2 + 1 - 2) j)); [apply sumn_delta; lia|].
      intros j Hj. rewrite mget_mk by assumption. destruct (Nat.eqb_spec i 0); [lia|].
      destruct (Nat.eqb_spec i (n * 2)); [reflexivity|lia]. }
    set (x := (Qcn i / Qcn (n * 2))%Qc). destruct model.
    + rewrite (sumn_tri _ i _ (x * x) (two * x * (1 - x)) ((1 - x) * (1 - x)))%Qc.
      * rewrite two_eq. ring.
      * lia.
      * lia.
      * intros j Hj. rewrite mget_mk by assumption. destruct (Nat.eqb_spec i 0); [lia|].
        destruct (Nat.eqb_spec i (n * 2)); [lia|]. reflexivity.
    + rewrite (sumn_tri _ i _ x 0q (1 - x))%Qc.
      * ring.
      * lia.
      * lia.
      * intros j Hj. rewrite mget_mk by assumption. destruct (Nat.eqb_spec i 0); [lia|].
        destruct (Nat.eqb_spec i (n * 2)); [lia|]. destruct (Nat.eqb_spec (S j) i); [reflexivity|].
        destruct (Nat.eqb_spec j i); [|reflexivity]. destruct (Nat.eqb_spec j (S i)); [lia|reflexivity].
Qed.

Lemma urn_model_spec model n st c : urn_model model n st = Ok c ->
  let d := 2 * Z.to_nat n in
  (1 <= n)%Z /\ valid_chain (d + 1) c /\ names_requested st (d + 1) (ch_states c) /\
  forall i j, i < d + 1 -> j < d + 1 ->
    mget (ch_p c) i j = match model with
                        | Ehrenfest => ehrenfest_spec d i j
                        | BernoulliLaplace => bernoulli_laplace_spec d i j
                        end.
Proof.
  unfold urn_model. destruct (Z.leb_spec 1 n) as [Hn|]; [|discriminate].
  set (k := Z.to_nat n). assert (Hk : 1 <= k) by (unfold k; lia).
  replace (2 * k) with (k * 2) by lia.
  destruct (gen_states st _ _) as [l|] eqn:E; [|discriminate]. simpl bind. intros H; inversion H; subst c. cbn [ch_p ch_states].
  apply gen_states_ok in E; [|lia]. destruct E as [E1 E2]. cbv zeta.
  split; [exact Hn|]. split; [split; [lia|split; [apply mc_urn_stochastic; exact Hk|exact E1]]|].
  split; [exact E2|]. intros i j Hi Hj. destruct model; [apply bernoulli_laplace_eq|apply ehrenfest_eq]; assumption.
Qed.
Lemma urn_model_total model n : (1 <= n)%Z -> exists c, urn_model model n None = Ok c.
Proof. intros H. unfold urn_model. destruct (Z.leb_spec 1 n); [|lia]. eexists; reflexivity. Qed.

(** * Binomial theorem *)
Lemma binom_gt n k : n < k -> binom n k = 0.
Proof.
  revert k; induction n as [|n IH]; intros [|k] H; try lia; [reflexivity|]. simpl. rewrite !IH by lia. reflexivity.
Qed.
Lemma binom_0 n : binom n 0 = 1. Proof. destruct n; reflexivity. Qed.

Lemma binomial_theorem n x y :
  sumn (S n) (fun k => Qcn (binom n k) * qpow x k * qpow y (n - k))%Qc = qpow (x + y)%Qc n.
Proof.
  induction n as [|n IH]; [simpl; replace (Qcn 1) with 1q by reflexivity; ring|].
  rewrite sumn_S_front.
  rewrite (sumn_ext (S n) _ (fun k => x * (Qcn (binom n k) * qpow x k * qpow y (n - k))
       + Qcn (binom n (S k)) * qpow x (S k) * qpow y (n - k))%Qc).
  2:{ intros k Hk. change (binom (S n) (S k)) with (binom n k + binom n (S k)). rewrite Qcn_add.
      change (S n - S k) with (n - k). change (qpow x (S k)) with (x * qpow x k)%Qc. ring. }
  rewrite sumn_plus, sumn_mul_l, IH.
  assert (E : (Qcn (binom (S n) 0) * qpow x 0 * qpow y (S n - 0)
     + sumn (S n) (fun k => Qcn (binom n (S k)) * qpow x (S k) * qpow y (n - k)))%Qc = (y * qpow (x + y) n)%Qc).
  { cbn [sumn]. rewrite (binom_gt n (S n)) by lia. rewrite <- IH. rewrite sumn_S_front, !binom_0.
    rewrite (sumn_ext n (fun k => Qcn (binom n (S k)) * qpow x (S k) * qpow y (n - k))%Qc
        (fun k => y * (Qcn (binom n (S k)) * qpow x (S k) * qpow y (n - S k)))%Qc).
    - rewrite sumn_mul_l. replace (Qcn 0) with 0q by reflexivity. rewrite !Nat.sub_0_r. cbn [qpow]. ring.
    - intros k Hk. replace (n - k) with (S (n - S k)) by lia. cbn [qpow]. ring. }
  transitivity (x * qpow (x + y) n + (y * qpow (x + y) n))%Qc; [rewrite <- E; ring|]. cbn [qpow]. ring.
Qed.

Lemma qpow_1 n : qpow 1q n = 1q.
Proof. induction n as [|n IH]; simpl; [reflexivity|rewrite IH; ring]. Qed.
Lemma qpow_nonneg x n : (0 <= x)%Qc -> (0 <= qpow x n)%Qc.
Proof. intros H; induction n as [|n IH]; simpl; [discriminate|apply Qc_mul_nonneg; assumption]. Qed.

Lemma binom_pmf_sum n x : sumn (n + 1) (fun k => binom_pmf n k x) = 1q.
Proof.
  replace (n + 1) with (S n) by lia. unfold binom_pmf. rewrite binomial_theorem.
  replace (x + (1 - x))%Qc with 1q by ring. apply qpow_1.
Qed.
Lemma binom_pmf_nonneg n k x : (0 <= x <= 1)%Qc -> (0 <= binom_pmf n k x)%Qc.
Proof.
  intros [H0 H1]. unfold binom_pmf. apply Qc_mul_nonneg; [apply Qc_mul_nonneg|]; [apply Qcn_nonneg|apply qpow_nonneg; exact H0|].
  apply qpow_nonneg. qclra.
Qed.

(** * Population genetics *)
Lemma wf_pm01 n u v i : 0 < i < n -> (0 <= u <= 1 -> 0 <= v <= 1 -> 0 <= wf_pm n u v i /\ wf_pm n u v i <= 1)%Qc.
Proof.
  intros Hi Hu Hv. unfold wf_pm. destruct (Qc_ratio01 i n ltac:(lia) ltac:(lia)) as [A B].
  set (k := (Qcn i / Qcn n)%Qc) in *. destruct Hu, Hv.
  assert (P1 : (0 <= k * (1 - u))%Qc) by (apply Qc_mul_nonneg; qclra).
  assert (P2 : (0 <= (1 - k) * v)%Qc) by (apply Qc_mul_nonneg; qclra).
  assert (P3 : (0 <= k * u)%Qc) by (apply Qc_mul_nonneg; assumption).
  assert (P4 : (0 <= (1 - k) * (1 - v))%Qc) by (apply Qc_mul_nonneg; qclra).
  split; [qclra|].
  assert (E : (1 - (k * (1 - u) + (1 - k) * v) = k * u + (1 - k) * (1 - v))%Qc) by ring.
  assert (G : (0 <= 1 - (k * (1 - u) + (1 - k) * v))%Qc) by (rewrite E; qclra).
  revert G. generalize (k * (1 - u) + (1 - k) * v)%Qc. intros z G. qclra.
Qed.

Lemma wf_raw_stochastic n s u v : 2 <= n -> (-(1) <= s)%Qc -> (0 <= u <= 1)%Qc -> (0 <= v <= 1)%Qc ->
  (forall i, 0 < i < n -> wf_den n s u v i <> 0q) -> stochastic (n + 1) (wf_raw n s u v).
Proof.
  intros Hn Hs Hu Hv Hden. split; [apply wf_mk|]. split.
  - intros i j Hi Hj. unfold wf_raw. rewrite mget_mk by assumption.
    destruct (Nat.eqb_spec i 0); [apply delta_nonneg|]. destruct (Nat.eqb_spec i n); [apply delta_nonneg|].
    apply binom_pmf_nonneg. unfold wf_ps, Qcmin.
    destruct (wf_pm01 n u v i ltac:(lia) Hu Hv) as [P0 P1]. assert (D := Hden i ltac:(lia)).
    assert (DP : (0 < wf_den n s u v i)%Qc).
    { assert (G : (0 <= wf_den n s u v i)%Qc).
      { unfold wf_den. cbv zeta. set (pm := wf_pm n u v i) in *.
        assert (Q : (0 <= pm * (1 + s))%Qc) by (apply Qc_mul_nonneg; qclra). qclra. }
      apply Qcle_lt_or_eq in G. destruct G as [G|G]; [exact G|]. symmetry in G; contradiction. }
    assert (Q : (0 <= wf_pm n u v i * (1 + s))%Qc) by (apply Qc_mul_nonneg; [exact P0|qclra]).
    destruct (Qcleb_spec (wf_pm n u v i * (1 + s) / wf_den n s u v i) 1q) as [L|L].
    + split; [apply Qc_div_nonneg; assumption|exact L].
    + split; discriminate.
  - intros i Hi. unfold wf_raw.
    destruct (Nat.eqb_spec i 0) as [E|E].
    { rewrite (sumn_ext _ _ (fun j => delta 0 j)); [apply sumn_delta; lia|].
      intros j Hj. rewrite mget_mk by assumption. subst i. reflexivity. }
    destruct (Nat.eqb_spec i n) as [E2|E2].
    { rewrite (sumn_ext _ _ (fun j => delta n j)); [apply sumn_delta; lia|].
      intros j Hj. rewrite mget_mk by assumption. destruct (Nat.eqb_spec i 0); [lia|].
      destruct (Nat.eqb_spec i n); [reflexivity|lia]. }
    rewrite (sumn_ext _ _ (fun j => binom_pmf n j (wf_ps n s u v i))); [apply binom_pmf_sum|].
    intros j Hj. rewrite mget_mk by assumption. destruct (Nat.eqb_spec i 0); [lia|].
    destruct (Nat.eqb_spec i n); [lia|reflexivity].
Qed.

Lemma moran_probs n s u v i : 0 < i < n -> (s <= 1)%Qc -> (0 <= u <= 1)%Qc -> (0 <= v <= 1)%Qc ->
  (0 < moran_den n s i /\ 0 <= moran_pm1 n s v i /\ 0 <= moran_pp1 n s u v i /\ moran_pm1 n s v i + moran_pp1 n s u v i <= 1)%Qc.
Proof.
  intros Hi Hs [U0 U1] [V0 V1].
  assert (Hr : (0 <= (1 - s) * Qcn i)%Qc) by (apply Qc_mul_nonneg; [qclra|apply Qcn_nonneg]).
  assert (Hm : (0 < Qcn (n - i))%Qc) by (apply Qcn_pos; lia).
  assert (HD : (0 < moran_den n s i)%Qc) by (unfold moran_den; qclra).
  split; [exact HD|]. unfold moran_pm1, moran_pp1.
  destruct (Qc_ratio01 i n ltac:(lia) ltac:(lia)) as [A B].
  destruct (Qc_ratio01 (n - i) n ltac:(lia) ltac:(lia)) as [A' B'].
  assert (EAB : (Qcn i / Qcn n + Qcn (n - i) / Qcn n = 1)%Qc).
  { rewrite Qcn_sub by lia. field. apply Qc_lt_neq, Qcn_pos; lia. }
  set (a := (Qcn i / Qcn n)%Qc) in *. set (b := (Qcn (n - i) / Qcn n)%Qc) in *.
  set (r := ((1 - s) * Qcn i)%Qc) in *. set (m := Qcn (n - i)) in *.
  set (x := ((r * v + m * (1 - v)) / moran_den n s i)%Qc). set (y := ((r * (1 - u) + m * v) / moran_den n s i)%Qc).
  assert (G1 : (0 <= r * v)%Qc) by (apply Qc_mul_nonneg; assumption).
  assert (G2 : (0 <= m * (1 - v))%Qc) by (apply Qc_mul_nonneg; qclra).
  assert (G3 : (0 <= r * (1 - u))%Qc) by (apply Qc_mul_nonneg; [assumption|qclra]).
  assert (G4 : (0 <= m * v)%Qc) by (apply Qc_mul_nonneg; [qclra|assumption]).
  assert (G5 : (0 <= r * (1 - v))%Qc) by (apply Qc_mul_nonneg; [assumption|qclra]).
  assert (G6 : (0 <= r * u)%Qc) by (apply Qc_mul_nonneg; assumption).
  assert (X0 : (0 <= x)%Qc) by (apply Qc_div_nonneg; [qclra|exact HD]).
  assert (Y0 : (0 <= y)%Qc) by (apply Qc_div_nonneg; [qclra|exact HD]).
  assert (X1 : (x <= 1)%Qc).
  { apply Qc_div_le_1; [exact HD|]. unfold moran_den. fold r m.
    assert (E : (r + m - (r * v + m * (1 - v)) = r * (1 - v) + m * v)%Qc) by ring.
    assert (F : (0 <= r + m - (r * v + m * (1 - v)))%Qc) by (rewrite E; qclra).
    revert F; generalize (r * v + m * (1 - v))%Qc; intros z F; qclra. }
  assert (Y1 : (y <= 1)%Qc).
  { apply Qc_div_le_1; [exact HD|]. unfold moran_den. fold r m.
    assert (E : (r + m - (r * (1 - u) + m * v) = r * u + m * (1 - v))%Qc) by ring.
    assert (F : (0 <= r + m - (r * (1 - u) + m * v))%Qc) by (rewrite E; qclra).
    revert F; generalize (r * (1 - u) + m * v)%Qc; intros z F; qclra. }
  split; [apply Qc_mul_nonneg; assumption|]. split; [apply Qc_mul_nonneg; assumption|].
  assert (Q1 : (0 <= a * (1 - x))%Qc) by (apply Qc_mul_nonneg; [assumption|qclra]).
  assert (Q2 : (0 <= b * (1 - y))%Qc) by (apply Qc_mul_nonneg; [assumption|qclra]).
  assert (E : (1 - (a * x + b * y) = a * (1 - x) + b * (1 - y))%Qc) by (replace (a * (1 - x) + b * (1 - y))%Qc with ((a + b) - (a * x + b * y))%Qc by ring; rewrite EAB; reflexivity).
  assert (F : (0 <= 1 - (a * x + b * y))%Qc) by (rewrite E; qclra).
  revert F; generalize (a * x + b * y)%Qc; intros z F; qclra.
Qed.

Lemma moran_raw_rows n s u v : 2 <= n -> forall i, i < n + 1 -> sumn (n + 1) (fun j => mget (moran_raw n s u v) i j) = 1q.
Proof.
  intros Hn i Hi. unfold moran_raw.
  destruct (Nat.eqb_spec i 0) as [E|E].
  { rewrite (sumn_ext _ _ (fun j => delta 0 j)); [apply sumn_delta; lia|].
    intros j Hj. rewrite mget_mk by assumption. subst i. reflexivity. }
  destruct (Nat.eqb_spec i n) as [E2|E2].
  { rewrite (sumn_ext _ _ (fun j => delta n j)); [apply sumn_delta; lia|].
    intros j Hj. rewrite mget_mk by assumption. destruct (Nat.eqb_spec i 0); [lia|].
    destruct (Nat.eqb_spec i n); [reflexivity|lia]. }
  rewrite (sumn_tri _ i _ (moran_pm1 n s v i) (1 - moran_pm1 n s v i - moran_pp1 n s u v i) (moran_pp1 n s u v i))%Qc.
  - ring.
  - lia.
  - lia.
  - intros j Hj. rewrite mget_mk by assumption. destruct (Nat.eqb_spec i 0); [lia|].
    destruct (Nat.eqb_spec i n); [lia|reflexivity].
Qed.

Lemma moran_raw_stochastic n s u v : 2 <= n -> (s <= 1)%Qc -> (0 <= u <= 1)%Qc -> (0 <= v <= 1)%Qc ->
  stochastic (n + 1) (moran_raw n s u v).
Proof.
  intros Hn Hs Hu Hv. split; [apply wf_mk|]. split; [|apply moran_raw_rows; exact Hn].
  intros i j Hi Hj. unfold moran_raw. rewrite mget_mk by assumption.
  destruct (Nat.eqb_spec i 0); [apply delta_nonneg|]. destruct (Nat.eqb_spec i n); [apply delta_nonneg|].
  destruct (moran_probs n s u v i ltac:(lia) Hs Hu Hv) as (_ & P1 & P2 & P3).
  destruct (Nat.eqb (S j) i); [exact P1|]. destruct (Nat.eqb j i); [qclra|].
  destruct (Nat.eqb j (S i)); [exact P2|discriminate].
Qed.

Lemma in01_true x : in01 x = true <-> (0 <= x <= 1)%Qc.
Proof. unfold in01. rewrite andb_true_iff, !Qcleb_le. reflexivity. Qed.

Lemma popgen_inv model n s u v st c : population_genetics_model model n s u v st = Ok c ->
  (2 <= n <= 500)%Z /\ (-(1) <= s)%Qc /\ (0 <= u <= 1)%Qc /\ (0 <= v <= 1)%Qc /\
  (model = WrightFisher -> (Q2Qc 4 * Qcn (Z.to_nat n) * Qcmax u v <= 1)%Qc) /\
  gen_states st (Z.to_nat n + 1) (create_labels (Z.to_nat n + 1) "") = Ok (ch_states c) /\
  mc_population_genetics_model model (Z.to_nat n) s u v = Ok (ch_p c).
Proof.
  unfold population_genetics_model.
  destruct (Z.leb_spec 2 n) as [N1|]; [|discriminate]. destruct (Z.leb_spec n 500) as [N2|]; [|discriminate]. cbn [andb].
  destruct (Qcleb_spec (-(1))%Qc s) as [S1|]; [|discriminate].
  destruct (in01 u) eqn:U; [|discriminate]. destruct (in01 v) eqn:V; [|discriminate].
  apply in01_true in U, V.
  destruct (gen_states st _ _) as [l|] eqn:E; [|discriminate]. cbn [bind].
  destruct (match model with Moran => true | WrightFisher => _ end) eqn:G; [|discriminate].
  destruct (mc_population_genetics_model model (Z.to_nat n) s u v) as [p|] eqn:P; [|discriminate]. cbn [bind].
  intros H; inversion H; subst c; cbn [ch_p ch_states].
  assert (GW : model = WrightFisher -> (Q2Qc 4 * Qcn (Z.to_nat n) * Qcmax u v <= 1)%Qc).
  { intros ->. apply negb_true_iff, Qcltb_ge in G. exact G. }
  auto 10.
Qed.

Lemma moran_valid n s u v st c : population_genetics_model Moran n s u v st = Ok c -> (s <= 1)%Qc ->
  valid_chain (Z.to_nat n + 1) c /\ names_requested st (Z.to_nat n + 1) (ch_states c) /\
  ch_p c = moran_raw (Z.to_nat n) s u v.
Proof.
  intros H Hs. apply popgen_inv in H. destruct H as ((N1 & N2) & S1 & U & V & _ & E & P).
  apply gen_states_ok in E; [|lia]. destruct E as [E1 E2].
  unfold mc_population_genetics_model in P.
  destruct (forallb _ (seq 1 (Z.to_nat n - 1))) eqn:F; [|discriminate]. inversion P as [P'].
  rewrite (div_rows_unit (Z.to_nat n + 1) (Z.to_nat n + 1)); [|lia|apply wf_mk|apply moran_raw_rows; lia].
  split; [|split; [exact E2|reflexivity]].
  split; [lia|]. split; [|exact E1]. rewrite <- P'.
  rewrite (div_rows_unit (Z.to_nat n + 1) (Z.to_nat n + 1)); [|lia|apply wf_mk|apply moran_raw_rows; lia].
  apply moran_raw_stochastic; try assumption. lia.
Qed.

Lemma moran_total n s u v : (2 <= n <= 500)%Z -> (-(1) <= s <= 1)%Qc -> (0 <= u <= 1)%Qc -> (0 <= v <= 1)%Qc ->
  exists c, population_genetics_model Moran n s u v None = Ok c.
Proof.
  intros [N1 N2] [S1 S2] U V. unfold population_genetics_model.
  destruct (Z.leb_spec 2 n); [|lia]. destruct (Z.leb_spec n 500); [|lia]. cbn [andb].
  apply Qcleb_le in S1. rewrite S1. rewrite (proj2 (in01_true u) U), (proj2 (in01_true v) V). cbn [gen_states bind].
  unfold mc_population_genetics_model.
  assert (F : forallb (fun i => negb (Qceqb (moran_den (Z.to_nat n) s i) 0)) (seq 1 (Z.to_nat n - 1)) = true).
  { apply forallb_forall. intros i Hi. apply in_seq in Hi. apply negb_true_iff, Qceqb_neq.
    destruct (moran_probs (Z.to_nat n) s u v i ltac:(lia) S2 U V) as (D & _). apply Qc_lt_neq; exact D. }
  rewrite F. eexists; reflexivity.
Qed.

Lemma wf_pm_lt1 n u v i : 0 < i < n -> (0 <= u <= 1)%Qc -> (0 <= v <= 1)%Qc ->
  (Q2Qc 4 * Qcn n * Qcmax u v <= 1)%Qc -> (wf_pm n u v i < 1)%Qc.
Proof.
  intros Hi [U0 U1] [V0 V1] HG. unfold wf_pm.
  assert (Hk : (Qcn i / Qcn n < 1)%Qc).
  { assert (HN : (0 < Qcn n)%Qc) by (apply Qcn_pos; lia). assert (L := Qcn_lt i n ltac:(lia)).
    assert (E : (Qcn i / Qcn n * Qcn n = Qcn i)%Qc) by (apply Qc_div_mul, Qc_lt_neq, HN).
    destruct (Qcleb_spec 1q (Qcn i / Qcn n)%Qc) as [G|G]; [|exact G]. exfalso.
    assert (0 <= (Qcn i / Qcn n - 1) * Qcn n)%Qc by (apply Qc_mul_nonneg; qclra).
    assert (E2 : ((Qcn i / Qcn n - 1) * Qcn n = Qcn i - Qcn n)%Qc) by (rewrite <- E at 2; ring).
    rewrite E2 in H. qclra. }
  destruct (Qc_ratio01 i n ltac:(lia) ltac:(lia)) as [A _]. set (k := (Qcn i / Qcn n)%Qc) in *.
  assert (V1' : (v < 1)%Qc).
  { assert (VM : (v <= Qcmax u v)%Qc) by (unfold Qcmax; destruct (Qcleb_spec u v); qclra).
    assert (HN : (1 <= Qcn n)%Qc). { assert (X := Qcn_le 1 n ltac:(lia)). replace (Qcn 1) with 1q in X by reflexivity. exact X. }
    destruct (Qcltb_spec v 1q) as [G|G]; [exact G|]. exfalso.
    assert (P : (0 <= (Qcn n - 1) * (Qcmax u v - 1))%Qc) by (apply Qc_mul_nonneg; qclra).
    replace ((Qcn n - 1) * (Qcmax u v - 1))%Qc with (Qcn n * Qcmax u v - Qcn n - Qcmax u v + 1)%Qc in P by ring.
    replace (Q2Qc 4 * Qcn n * Qcmax u v)%Qc with (Q2Qc 4 * (Qcn n * Qcmax u v))%Qc in HG by ring.
    revert P HG. generalize (Qcn n * Qcmax u v)%Qc. intros z P HG. qclra. }
  assert (P1 : (0 <= k * u)%Qc) by (apply Qc_mul_nonneg; assumption).
  assert (P2 : (0 < (1 - k) * (1 - v))%Qc) by (apply Qc_mul_pos; qclra).
  assert (E : (1 - (k * (1 - u) + (1 - k) * v) = k * u + (1 - k) * (1 - v))%Qc) by ring.
  assert (F : (0 < 1 - (k * (1 - u) + (1 - k) * v))%Qc) by (rewrite E; qclra).
  revert F. generalize (k * (1 - u) + (1 - k) * v)%Qc. intros z F. qclra.
Qed.

Lemma wf_den_pos n s u v i : 0 < i < n -> (-(1) <= s)%Qc -> (0 <= u <= 1)%Qc -> (0 <= v <= 1)%Qc ->
  (Q2Qc 4 * Qcn n * Qcmax u v <= 1)%Qc -> (0 < wf_den n s u v i)%Qc.
Proof.
  intros Hi Hs Hu Hv HG. assert (L := wf_pm_lt1 n u v i Hi Hu Hv HG). destruct (wf_pm01 n u v i Hi Hu Hv) as [P0 _].
  unfold wf_den. cbv zeta. set (pm := wf_pm n u v i) in *.
  assert (Q : (0 <= pm * (1 + s))%Qc) by (apply Qc_mul_nonneg; qclra). qclra.
Qed.

Lemma wright_fisher_valid n s u v st c : population_genetics_model WrightFisher n s u v st = Ok c ->
  valid_chain (Z.to_nat n + 1) c /\ names_requested st (Z.to_nat n + 1) (ch_states c) /\
  ch_p c = wf_raw (Z.to_nat n) s u v.
Proof.
  intros H. apply popgen_inv in H. destruct H as ((N1 & N2) & S1 & U & V & G & E & P).
  specialize (G eq_refl). apply gen_states_ok in E; [|lia]. destruct E as [E1 E2].
  unfold mc_population_genetics_model in P.
  destruct (forallb _ (seq 1 (Z.to_nat n - 1))) eqn:F; [|discriminate]. inversion P as [P'].
  assert (ST : stochastic (Z.to_nat n + 1) (wf_raw (Z.to_nat n) s u v)).
  { apply wf_raw_stochastic; try assumption; [lia|]. intros i Hi. apply Qc_lt_neq, wf_den_pos; assumption. }
  rewrite (div_rows_unit (Z.to_nat n + 1) (Z.to_nat n + 1)); [|lia|apply wf_mk|apply ST].
  split; [|split; [exact E2|reflexivity]].
  split; [lia|]. split; [|exact E1]. rewrite <- P'.
  rewrite (div_rows_unit (Z.to_nat n + 1) (Z.to_nat n + 1)); [exact ST|lia|apply wf_mk|apply ST].
Qed.

Lemma wright_fisher_total n s u v : (2 <= n <= 500)%Z -> (-(1) <= s)%Qc -> (0 <= u <= 1)%Qc -> (0 <= v <= 1)%Qc ->
  (Q2Qc 4 * Qcn (Z.to_nat n) * Qcmax u v <= 1)%Qc ->
  exists c, population_genetics_model WrightFisher n s u v None = Ok c.
Proof.
  intros [N1 N2] S1 U V G. unfold population_genetics_model.
  destruct (Z.leb_spec 2 n); [|lia]. destruct (Z.leb_spec n 500); [|lia]. cbn [andb].
  assert (S1' := S1). apply Qcleb_le in S1'. rewrite S1'. rewrite (proj2 (in01_true u) U), (proj2 (in01_true v) V). cbn [gen_states bind].
  destruct (Qcltb_spec 1q (Q2Qc 4 * Qcn (Z.to_nat n) * Qcmax u v)%Qc) as [G2|_].
  { exfalso. apply (Qclt_irr 1q). eapply Qclt_le_trans; eassumption. }
  cbn [negb]. unfold mc_population_genetics_model.
  assert (F : forallb (fun i => negb (Qceqb (wf_den (Z.to_nat n) s u v i) 0)) (seq 1 (Z.to_nat n - 1)) = true).
  { apply forallb_forall. intros i Hi. apply in_seq in Hi. apply negb_true_iff, Qceqb_neq.
    apply Qc_lt_neq, wf_den_pos; try assumption. lia. }
  rewrite F. eexists; reflexivity.
Qed.

(** * Rouwenhorst *)
Lemma sumn_lt_if n f : sumn (n + 1) (fun j => if Nat.ltb j n then f j else 0q) = sumn n f.
Proof.
  rewrite sumn_split. cbn [sumn]. destruct (Nat.ltb_spec (n + 0) n); [lia|].
  rewrite (sumn_ext n _ f) by (intros j Hj; destruct (Nat.ltb_spec j n); [reflexivity|lia]). ring.
Qed.
Lemma sumn_ge1_if n f : sumn (n + 1) (fun j => if Nat.leb 1 j then f (j - 1) else 0q) = sumn n f.
Proof.
  rewrite Nat.add_1_r, sumn_S_front. cbn [Nat.leb].
  rewrite (sumn_ext n _ f) by (intros j Hj; replace (S j - 1) with j by lia; reflexivity). ring.
Qed.

Lemma rouwenhorst_stochastic k z : (0 <= z <= 1)%Qc -> stochastic (k + 2) (rouwenhorst k z).
Proof.
  intros [Z0 Z1]. assert (Z2 : (0 <= 1 - z)%Qc) by qclra.
  induction k as [|k IH].
  - split; [split; [reflexivity|intros r [<-|[<-|[]]]; reflexivity]|]. split.
    + intros i j Hi Hj. destruct i as [|[|i]]; [| |lia]; destruct j as [|[|j]]; try lia; cbn; assumption.
    + intros i Hi. destruct i as [|[|i]]; [| |lia]; cbn; ring.
  - cbn [rouwenhorst]. set (th := rouwenhorst k z) in *. destruct IH as (IW & IP & IS).
    assert (N : S k + 2 = (k + 2) + 1) by lia. assert (N1 : S k + 2 - 1 = k + 2) by lia.
    split; [apply wf_mk|]. split.
    + intros i j Hi Hj. rewrite mget_mk by assumption. rewrite N1.
      assert (T1 : (0 <= (if Nat.ltb i (k + 2) && Nat.ltb j (k + 2) then z * mget th i j else 0))%Qc).
      { destruct (Nat.ltb_spec i (k + 2)), (Nat.ltb_spec j (k + 2)); cbn; try discriminate. apply Qc_mul_nonneg; auto. }
      assert (T2 : (0 <= (if Nat.ltb i (k + 2) && Nat.leb 1 j then (1 - z) * mget th i (j - 1)%nat else 0))%Qc).
      { destruct (Nat.ltb_spec i (k + 2)), (Nat.leb_spec 1 j); cbn; try discriminate. apply Qc_mul_nonneg; [auto|apply IP; lia]. }
      assert (T3 : (0 <= (if Nat.leb 1 i && Nat.ltb j (k + 2) then (1 - z) * mget th (i - 1)%nat j else 0))%Qc).
      { destruct (Nat.leb_spec 1 i), (Nat.ltb_spec j (k + 2)); cbn; try discriminate. apply Qc_mul_nonneg; [auto|apply IP; lia]. }
      assert (T4 : (0 <= (if Nat.leb 1 i && Nat.leb 1 j then z * mget th (i - 1)%nat (j - 1)%nat else 0))%Qc).
      { destruct (Nat.leb_spec 1 i), (Nat.leb_spec 1 j); cbn; try discriminate. apply Qc_mul_nonneg; [auto|apply IP; lia]. }
      destruct (Nat.leb 1 i && Nat.ltb i (k + 2)).
      * apply Qc_div_nonneg; [|reflexivity]. qclra.
      * qclra.
    + intros i Hi.
      set (o := fun j : nat => ((if Nat.ltb i (k + 2) && Nat.ltb j (k + 2) then z * mget th i j else 0)
         + (if Nat.ltb i (k + 2) && Nat.leb 1 j then (1 - z) * mget th i (j - 1)%nat else 0)
         + (if Nat.leb 1 i && Nat.ltb j (k + 2) then (1 - z) * mget th (i - 1)%nat j else 0)
         + (if Nat.leb 1 i && Nat.leb 1 j then z * mget th (i - 1)%nat (j - 1)%nat else 0))%Qc).
      rewrite (sumn_ext _ _ (fun j => if Nat.leb 1 i && Nat.ltb i (k + 2) then (o j / two)%Qc else o j))
        by (intros j Hj; rewrite mget_mk by assumption; rewrite N1; reflexivity).
      assert (SO : sumn (S k + 2) o = ((if Nat.ltb i (k + 2) then 1 else 0) + (if Nat.leb 1 i then 1 else 0))%Qc).
      { unfold o. rewrite N, !sumn_plus.
        destruct (Nat.ltb_spec i (k + 2)) as [L|L]; destruct (Nat.leb_spec 1 i) as [G|G]; cbn [andb].
        - rewrite !sumn_lt_if. rewrite (sumn_ge1_if _ (fun j => (1 - z) * mget th i j)%Qc).
          rewrite (sumn_ge1_if _ (fun j => z * mget th (i - 1)%nat j)%Qc). rewrite !sumn_mul_l, !IS by lia. ring.
        - rewrite !sumn_lt_if. rewrite (sumn_ge1_if _ (fun j => (1 - z) * mget th i j)%Qc).
          rewrite !(sumn_0 _ (fun _ => 0q)) by reflexivity. rewrite !sumn_mul_l, !IS by lia. ring.
        - rewrite !(sumn_0 _ (fun _ => 0q)) by reflexivity. rewrite !sumn_lt_if.
          rewrite (sumn_ge1_if _ (fun j => z * mget th (i - 1)%nat j)%Qc). rewrite !sumn_mul_l, !IS by lia. ring.
        - lia. }
      destruct (Nat.leb_spec 1 i) as [G|G]; destruct (Nat.ltb_spec i (k + 2)) as [L|L]; cbn [andb].
      * rewrite sumn_div, SO, two_eq. field. discriminate.
      * etransitivity; [exact SO|ring].
      * etransitivity; [exact SO|ring].
      * lia.
Qed.

Lemma half_range rho : (-(1) <= rho <= 1)%Qc -> (0 <= (1 + rho) / two <= 1)%Qc.
Proof.
  intros [A B]. split; [apply Qc_div_nonneg; [qclra|reflexivity]|apply Qc_div_le_1; [reflexivity|rewrite two_eq; qclra]].
Qed.

Lemma approximation_inv cdf sq quad size a sigma rho st c : approximation cdf sq quad size a sigma rho st = Ok c ->
  (2 <= size)%Z /\ (0 < sigma)%Qc /\ (-(1) <= rho <= 1)%Qc /\
  gen_states st (Z.to_nat size) (create_labels (Z.to_nat size) "") = Ok (ch_states c) /\
  match a with
  | Rouwenhorst => ch_p c = rouwenhorst (Z.to_nat size - 2) ((1 + rho) / two)%Qc
  | Tauchen k => (1 <= opt_get (Q2Qc 3) k)%Qc /\ mc_tauchen cdf sq (Z.to_nat size) sigma rho (opt_get (Q2Qc 3) k) = Ok (ch_p c)
  | AddaCooper => mc_adda_cooper quad sq (Z.to_nat size) sigma rho = Ok (ch_p c)
  end.
Proof.
  unfold approximation. destruct (Z.leb_spec 2 size) as [S|]; [|discriminate].
  destruct (Qcltb_spec 0 sigma) as [G|]; [|discriminate].
  destruct (Qcleb_spec (-(1))%Qc rho) as [R1|]; [|discriminate]. destruct (Qcleb_spec rho 1) as [R2|]; [|discriminate]. cbn [andb].
  destruct (gen_states st _ _) as [l|] eqn:E; [|discriminate]. cbn [bind].
  destruct a as [|k|]; cbn [bind].
  - intros H; inversion H; subst; cbn. auto 10.
  - destruct (Qcleb_spec 1 (opt_get (Q2Qc 3) k)) as [K|]; [|discriminate].
    destruct (mc_tauchen _ _ _ _ _ _) as [p|]; [|discriminate]. cbn [bind]. intros H; inversion H; subst; cbn. auto 10.
  - destruct (mc_adda_cooper _ _ _ _ _) as [p|]; [|discriminate]. cbn [bind]. intros H; inversion H; subst; cbn. auto 10.
Qed.

Lemma rouwenhorst_valid cdf sq quad size sigma rho st c :
  approximation cdf sq quad size Rouwenhorst sigma rho st = Ok c ->
  valid_chain (Z.to_nat size) c /\ names_requested st (Z.to_nat size) (ch_states c).
Proof.
  intros H. apply approximation_inv in H. destruct H as (S & G & R & E & P).
  apply gen_states_ok in E; [|lia]. destruct E as [E1 E2]. split; [|exact E2].
  split; [lia|]. split; [|exact E1]. rewrite P. replace (Z.to_nat size) with (Z.to_nat size - 2 + 2) at 1 by lia.
  apply rouwenhorst_stochastic, half_range, R.
Qed.

(** * Tauchen *)

Lemma tauchen_stochastic F sq size sigma rho k P : 2 <= size -> (0 < sigma)%Qc -> (0 <= k)%Qc ->
  cdf_like F -> (forall x, (0 <= x)%Qc -> (0 <= sq x)%Qc) -> (-(1) <= rho <= 1)%Qc ->
  mc_tauchen F sq size sigma rho k = Ok P -> stochastic size P.
Proof.
  intros Hn Hs Hk [Fm F01] Hsq Hrho. unfold mc_tauchen.
  set (rho' := if isclose rho 1 then (1 - Q2Qc (1 # 100000000))%Qc else rho).
  destruct (Qceqb_spec (1 - rho' * rho')%Qc 0q) as [E|E]; [discriminate|]. cbn [negb].
  assert (Hr' : (-(1) <= rho' <= 1)%Qc).
  { unfold rho'. destruct (isclose rho 1); [split; discriminate|exact Hrho]. }
  assert (HD : (0 < 1 - rho' * rho')%Qc).
  { assert (G : (0 <= (1 - rho') * (1 + rho'))%Qc) by (destruct Hr'; apply Qc_mul_nonneg; qclra).
    replace ((1 - rho') * (1 + rho'))%Qc with (1 - rho' * rho')%Qc in G by ring.
    apply Qcle_lt_or_eq in G. destruct G as [G|G]; [exact G|symmetry in G; contradiction]. }
  set (y := sq (sigma * sigma / (1 - rho' * rho'))%Qc).
  assert (Hy : (0 <= y)%Qc).
  { apply Hsq. apply Qc_div_nonneg; [apply Qc_mul_nonneg; qclra|exact HD]. }
  set (xm := (y * k)%Qc). assert (Hxm : (0 <= xm)%Qc) by (apply Qc_mul_nonneg; assumption).
  set (d := ((xm - - xm) / Qcn (size - 1))%Qc).
  assert (Hd : (0 <= d)%Qc). { apply Qc_div_nonneg; [qclra|apply Qcn_pos; lia]. }
  set (step := (half * d)%Qc). assert (Hstep : (0 <= step)%Qc) by (apply Qc_mul_nonneg; [discriminate|exact Hd]).
  set (x := linspace (- xm)%Qc xm size).
  assert (Hx : forall i, x (S i) = (x i + step + step)%Qc).
  { intros i. unfold x, linspace. rewrite Qcn_S. fold d. unfold step. replace half with (1 / two)%Qc by reflexivity.
    rewrite two_eq. field. discriminate. }
  intros H; inversion H; subst P; clear H.
  set (lo := fun i j : nat => F ((x j - rho' * x i - step) / sigma)%Qc).
  assert (Hup : forall i j, F ((x j - rho' * x i + step) / sigma)%Qc = lo i (S j)).
  { intros i j. unfold lo. rewrite Hx. f_equal. f_equal. ring. }
  assert (Hmono : forall i j, (lo i j <= lo i (S j))%Qc).
  { intros i j. rewrite <- Hup. unfold lo. apply Fm. unfold Qcdiv.
    apply Qcmult_le_compat_r; [qclra|]. apply Qclt_le_weak, Qc_inv_pos, Hs. }
  assert (Cell : forall i j, i < size -> j < size ->
    mget (mk size size (fun i j => if Nat.eqb j 0 then F ((x 0%nat - rho' * x i + step) / sigma)%Qc
      else if Nat.eqb j (size - 1) then (1 - F ((x (size - 1)%nat - rho' * x i - step) / sigma))%Qc
      else (F ((x j - rho' * x i + step) / sigma) - F ((x j - rho' * x i - step) / sigma))%Qc)) i j
    = ((if Nat.eqb j (size - 1) then 1 else lo i (S j)) - (if Nat.eqb j 0 then 0 else lo i j))%Qc).
  { intros i j Hi Hj. rewrite mget_mk by assumption. destruct (Nat.eqb_spec j 0) as [->|J0].
    - destruct (Nat.eqb_spec 0 (size - 1)); [lia|]. rewrite Hup. ring.
    - destruct (Nat.eqb_spec j (size - 1)) as [->|J1]; [reflexivity|]. rewrite Hup. reflexivity. }
  split; [apply wf_mk|]. split.
  - intros i j Hi Hj. rewrite Cell by assumption.
    assert (M := Hmono i j). assert (B1 := F01 ((x (S j) - rho' * x i - step) / sigma)%Qc). assert (B2 := F01 ((x j - rho' * x i - step) / sigma)%Qc).
    fold (lo i (S j)) in B1. fold (lo i j) in B2. destruct B1, B2.
    destruct (Nat.eqb j (size - 1)); destruct (Nat.eqb j 0); qclra.
  - intros i Hi. etransitivity; [exact (sumn_ext size _ _ (fun j Hj => Cell i j Hi Hj))|].
    (* telescoping *)
    assert (T : forall m, m < size -> sumn (S m) (fun j => ((if Nat.eqb j (size - 1) then 1 else lo i (S j)) - (if Nat.eqb j 0 then 0 else lo i j))%Qc)
       = if Nat.eqb m (size - 1) then 1q else lo i (S m)).
    { induction m as [|m IH]; intros Hm.
      - cbn [sumn Nat.eqb]. destruct (Nat.eqb 0 (size - 1)); ring.
      - cbn [sumn]. cbn [sumn] in IH. rewrite IH by lia.
        destruct (Nat.eqb_spec m (size - 1)); [lia|]. cbn [Nat.eqb]. destruct (Nat.eqb (S m) (size - 1)); ring. }
    specialize (T (size - 1) ltac:(lia)). replace (S (size - 1)) with size in T by lia. rewrite T, Nat.eqb_refl. reflexivity.
Qed.

Lemma tauchen_ok_range F sq size sigma rho k : (-(1) < rho)%Qc /\ (rho <= 1)%Qc -> exists P, mc_tauchen F sq size sigma rho k = Ok P.
Proof.
  intros [R1 R2]. unfold mc_tauchen. set (rho' := if isclose rho 1 then (1 - Q2Qc (1 # 100000000))%Qc else rho).
  assert (HD : (1 - rho' * rho')%Qc <> 0q).
  { unfold rho'. destruct (isclose rho 1) eqn:E; [apply Qceqb_neq; vm_compute; reflexivity|].
    assert (rho <> 1q) by (intros ->; rewrite isclose_refl in E; discriminate).
    apply Qcle_lt_or_eq in R2. destruct R2 as [R2|R2]; [|contradiction].
    assert (G : (0 < (1 - rho) * (1 + rho))%Qc) by (apply Qc_mul_pos; qclra).
    replace ((1 - rho) * (1 + rho))%Qc with (1 - rho * rho)%Qc in G by ring. apply Qc_lt_neq; exact G. }
  destruct (Qceqb_spec (1 - rho' * rho')%Qc 0q); [contradiction|]. eexists; reflexivity.
Qed.

(** * Dirichlet process *)
Lemma gem_weights_pos ds : forall a, (a < 1)%Qc -> (forall x, In x ds -> (0 < x < 1)%Qc) -> forall w, In w (gem_weights a ds) -> (0 < w)%Qc.
Proof.
  induction ds as [|d ds IH]; intros a Ha Hd w Hw; simpl in Hw; [contradiction|].
  assert (D := Hd d (or_introl eq_refl)). destruct D as [D0 D1].
  destruct Hw as [<-|Hw].
  - apply Qc_mul_pos; qclra.
  - apply (IH (a + (1 - a) * d)%Qc); [|intros; apply Hd; right; assumption|exact Hw].
    assert (P : (0 < (1 - a) * (1 - d))%Qc) by (apply Qc_mul_pos; qclra).
    replace ((1 - a) * (1 - d))%Qc with (1 - (a + (1 - a) * d))%Qc in P by ring.
    revert P. generalize (a + (1 - a) * d)%Qc. intros z P. qclra.
Qed.
Lemma gem_weights_length ds : forall a, length (gem_weights a ds) = length ds.
Proof. induction ds as [|d ds IH]; intros a; simpl; [reflexivity|rewrite IH; reflexivity]. Qed.

Lemma lsum_pos l : l <> [] -> (forall x, In x l -> (0 < x)%Qc) -> (0 < lsum l)%Qc.
Proof.
  destruct l as [|x l]; [congruence|]. intros _ H. simpl.
  assert (A := H x (or_introl eq_refl)).
  assert (B : (0 <= lsum l)%Qc) by (apply lsum_nonneg; intros y Hy; apply Qclt_le_weak, H; right; exact Hy).
  qclra.
Qed.
Lemma lsum_map_div l c : lsum (map (fun x => x / c)%Qc l) = (lsum l / c)%Qc.
Proof. induction l as [|x l IH]; simpl; [unfold Qcdiv; ring|]. rewrite IH. unfold Qcdiv. ring. Qed.

Lemma gem_allocation_spec ds : ds <> [] -> (forall x, In x ds -> (0 < x < 1)%Qc) ->
  length (gem_allocation ds) = length ds /\ (forall x, In x (gem_allocation ds) -> (0 < x)%Qc) /\ lsum (gem_allocation ds) = 1q.
Proof.
  intros Hne Hd. unfold gem_allocation. set (w := gem_weights 0 ds).
  assert (Hw : forall x, In x w -> (0 < x)%Qc) by (apply gem_weights_pos; [reflexivity|exact Hd]).
  assert (Hwl : length w = length ds) by apply gem_weights_length.
  assert (Hs : (0 < lsum w)%Qc).
  { apply lsum_pos; [|exact Hw]. intros E. rewrite E in Hwl. destruct ds; [congruence|discriminate]. }
  split; [rewrite map_length; exact Hwl|]. split.
  - intros x Hx. apply in_map_iff in Hx. destruct Hx as (y & <- & Hy). apply Qc_div_pos; [apply Hw; exact Hy|exact Hs].
  - rewrite lsum_map_div. apply Qc_div_self, Qc_lt_neq, Hs.
Qed.

Lemma lsum_rev l : lsum (rev l) = lsum l.
Proof. induction l as [|x l IH]; simpl; [reflexivity|]. rewrite lsum_app, IH. simpl. ring. Qed.

Lemma rows_stochastic n m (M : mat) : length M = n -> (forall r, In r M -> length r = m /\ (forall x, In x r -> (0 <= x)%Qc) /\ lsum r = 1q) ->
  row_stochastic n m M.
Proof.
  intros Hl Hr. assert (W : wf n m M) by (split; [exact Hl|intros r H; apply Hr; exact H]).
  split; [exact W|]. split.
  - intros i j Hi Hj. assert (Hin : In (nth i M []) M) by (apply nth_In; lia).
    destruct (Hr _ Hin) as (L & P & _). apply P. unfold mget. apply nth_In. lia.
  - intros i Hi. assert (Hin : In (nth i M []) M) by (apply nth_In; lia).
    destruct (Hr _ Hin) as (L & _ & S1). rewrite <- S1, lsum_nth, L. reflexivity.
Qed.

Lemma dirichlet_stochastic size draws diag shift : 2 <= size -> wf size size draws ->
  (forall i j, i < size -> j < size -> (0 < mget draws i j < 1)%Qc) ->
  (forall d, diag = Some d -> length d = size /\ forall i, i < size -> (0 <= vget d i)%Qc) ->
  stochastic size (mc_dirichlet_process size draws diag shift).
Proof.
  intros Hn HW HD Hdiag. unfold mc_dirichlet_process.
  assert (HR : forall r, In r draws -> r <> [] /\ length r = size /\ forall x, In x r -> (0 < x < 1)%Qc).
  { intros r Hr. assert (L := proj2 HW r Hr). split; [intros ->; simpl in L; lia|]. split; [exact L|].
    apply In_nth with (d := []) in Hr. destruct Hr as (i & Hi & <-). intros x Hx.
    apply In_nth with (d := 0q) in Hx. destruct Hx as (j & Hj & <-). apply HD; [destruct HW; lia|lia]. }
  assert (S0 : row_stochastic size size (map gem_allocation draws)).
  { apply rows_stochastic; [rewrite map_length; apply HW|]. intros r Hr. apply in_map_iff in Hr. destruct Hr as (d & <- & Hd).
    destruct (HR d Hd) as (N & L & P). destruct (gem_allocation_spec d N P) as (A & B & C).
    split; [lia|]. split; [|exact C]. intros x Hx. apply Qclt_le_weak, B, Hx. }
  assert (S1 : row_stochastic size size (if shift then map (@rev Qc) (map gem_allocation draws) else map gem_allocation draws)).
  { destruct shift; [|exact S0].
    apply rows_stochastic; [rewrite !map_length; apply HW|]. intros r Hr. apply in_map_iff in Hr. destruct Hr as (d' & <- & Hd').
    apply in_map_iff in Hd'. destruct Hd' as (d & <- & Hd).
    destruct (HR d Hd) as (N & L & P). destruct (gem_allocation_spec d N P) as (A & B & C).
    split; [rewrite rev_length; lia|]. split; [|rewrite lsum_rev; exact C].
    intros x Hx. apply in_rev in Hx. apply Qclt_le_weak, B, Hx. }
  set (p := if shift then _ else _) in *. destruct diag as [d|]; [|exact S1].
  destruct (Hdiag d eq_refl) as [Ld Pd]. destruct S1 as (W1 & P1 & R1).
  set (M := mk size size _).
  assert (CM : forall i j, i < size -> j < size -> mget M i j = (mget p i j + (if Nat.eqb i j then vget d i else 0))%Qc).
  { intros i j Hi Hj. unfold M. rewrite mget_mk by assumption. reflexivity. }
  assert (SM : forall i, i < size -> (0 < sumn size (fun j => mget M i j))%Qc).
  { intros i Hi. rewrite (sumn_ext size _ (fun j => mget p i j + delta i j * vget d i)%Qc).
    - rewrite sumn_plus, R1, sumn_delta_c by exact Hi. assert (X := Pd i Hi). qclra.
    - intros j Hj. rewrite CM by assumption. unfold delta. destruct (Nat.eqb i j); ring. }
  assert (WM : wf size size M) by apply wf_mk.
  split; [apply wf_div_rows; [lia|exact WM]|]. split.
  - intros i j Hi Hj. rewrite (mget_div_rows size size) by assumption. apply Qc_div_nonneg; [|apply SM; exact Hi].
    rewrite CM by assumption. assert (X := P1 i j Hi Hj). assert (Y := Pd i Hi). destruct (Nat.eqb i j); qclra.
  - intros i Hi. rewrite (sumn_ext size _ (fun j => mget M i j / sumn size (fun l => mget M i l))%Qc)
      by (intros; apply (mget_div_rows size size); assumption).
    rewrite sumn_div. apply Qc_div_self, Qc_lt_neq, SM, Hi.
Qed.
