(** L_Adda2: the theorems about the Adda-Cooper approximation. *)
From Coq Require Import Reals Lra Lia Psatz List ZArith.
From Verif Require Import Base Calc S_Normal L_Normal L_Bivar S_Adda M_Adda L_Adda.
Import ListNotations.
Local Open Scope R_scope.

Lemma total_S n f : total (S n) f = total n f + f n.
Proof.
  unfold total. rewrite seq_S, map_app, fold_right_app. cbn. rewrite Rplus_0_r.
  induction (map f (seq 0 n)) as [|x l IH]; cbn; [ring|]. rewrite IH. ring.
Qed.
Lemma total_ext n f g : (forall i, (i < n)%nat -> f i = g i) -> total n f = total n g.
Proof. intros E. unfold total. f_equal. apply map_ext_in. intros i I. apply in_seq in I. apply E. lia. Qed.
Lemma total_tele n (h : nat -> R) : total n (fun j => h (S j) - h j) = h n - h 0%nat.
Proof. induction n as [|n IH]; [cbn; ring|]. rewrite total_S, IH. ring. Qed.
Lemma total_scal c n f : total n (fun j => c * f j) = c * total n f.
Proof. induction n as [|n IH]; [cbn; ring|]. rewrite !total_S, IH. ring. Qed.

Lemma adda_ok iq size alpha sigma rho p : approximation_adda iq size alpha sigma rho = Ok p ->
  (2 <= Z.to_nat size)%nat /\ 0 < sigma /\ 0 < 1 - rho * rho /\ p = ac_entry iq (Z.to_nat size) sigma rho.
Proof.
  unfold approximation_adda. destruct (Z.leb_spec 2 size); [|discriminate]. cbn.
  destruct (Rlt_dec 0 sigma); [|discriminate]. cbn.
  destruct (Rle_dec (-1) rho); [|discriminate]. destruct (Rle_dec rho 1); [|discriminate]. cbn.
  destruct (Req_EM_T (1 - rho * rho) 0) as [|N]; [discriminate|]. intros [= <-]. repeat split; auto; [lia|]. nra.
Qed.

Theorem adda_accepts iq size alpha sigma rho : (exists p, approximation_adda iq size alpha sigma rho = Ok p) <->
  (2 <= size)%Z /\ 0 < sigma /\ -1 < rho < 1.
Proof.
  split.
  - intros [p H]. destruct (adda_ok _ _ _ _ _ _ H) as (A & B & C & _). split; [lia|]. split; auto. nra.
  - intros (A & B & C). eexists. unfold approximation_adda. destruct (Z.leb_spec 2 size); [|lia]. cbn.
    destruct (Rlt_dec 0 sigma); [|exfalso; lra]. cbn.
    destruct (Rle_dec (-1) rho); [|exfalso; lra]. destruct (Rle_dec rho 1); [|exfalso; lra]. cbn.
    destruct (Req_EM_T (1 - rho * rho) 0); [exfalso; nra|reflexivity].
Qed.
Theorem adda_unit_root iq size alpha sigma rho : (2 <= size)%Z -> 0 < sigma -> rho = 1 \/ rho = -1 ->
  approximation_adda iq size alpha sigma rho = Err ArithErr.
Proof.
  intros A B C. unfold approximation_adda. destruct (Z.leb_spec 2 size); [|lia]. cbn.
  destruct (Rlt_dec 0 sigma); [|exfalso; lra]. cbn.
  destruct (Rle_dec (-1) rho); [|exfalso; lra]. destruct (Rle_dec rho 1); [|exfalso; lra]. cbn.
  destruct (Req_EM_T (1 - rho * rho) 0) as [|N]; [reflexivity|]. exfalso. apply N. destruct C; subst; ring.
Qed.

Section Ok.
  Variables (cdf ppf : R -> R) (iq : nat -> nat -> R) (size : Z) (alpha sigma rho : R) (p : nat -> nat -> R).
  Hypotheses (CDF : normal_cdf cdf) (PPF : normal_quantile cdf ppf).
  Hypothesis Q : quad_exact cdf ppf iq (Z.to_nat size) alpha sigma rho.
  Hypothesis OK : approximation_adda iq size alpha sigma rho = Ok p.
  Let n := Z.to_nat size.
  Let s := sqrt (1 - rho * rho).
  Let b := ac_ppf ppf n.

  Lemma p_entry i j : (i < n)%nat -> (j < n)%nat -> p i j = INR n * box rho s (b i) (b (S i)) (b j) (b (S j)).
  Proof.
    intros I J. destruct (adda_ok _ _ _ _ _ _ OK) as (N & SG & R1 & ->).
    exact (entry_value cdf ppf iq n alpha sigma rho SG R1 CDF i j Q I J).
  Qed.
  Theorem adda_positive i j : (i < n)%nat -> (j < n)%nat -> 0 < p i j.
  Proof.
    intros I J. destruct (adda_ok _ _ _ _ _ _ OK) as (N & SG & R1 & _). rewrite p_entry by auto.
    apply Rmult_lt_0_compat; [now apply size_pos|].
    apply box_pos; [now apply s_pos|now apply s_sq| |]; now apply (level_lt cdf).
  Qed.
  Lemma adda_lower i m : (i < n)%nat -> (m <= n)%nat ->
    total m (p i) = INR n * (bothx rho s (b (S i)) (b m) - bothx rho s (b i) (b m)).
  Proof.
    intros I M.
    rewrite (total_ext m _ (fun j => (fun k => INR n * (bothx rho s (b (S i)) (b k) - bothx rho s (b i) (b k))) (S j)
                                   - (fun k => INR n * (bothx rho s (b (S i)) (b k) - bothx rho s (b i) (b k))) j)).
    - rewrite (total_tele m (fun k => INR n * (bothx rho s (b (S i)) (b k) - bothx rho s (b i) (b k)))).
      assert (Z : forall a, bothx rho s a (b 0%nat) = 0) by (intros a; destruct a; reflexivity). rewrite !Z. ring.
    - intros j J. rewrite p_entry by lia. unfold box. cbn beta. ring.
  Qed.
  Theorem adda_rows i : (i < n)%nat -> total n (p i) = 1.
  Proof.
    intros I. destruct (adda_ok _ _ _ _ _ _ OK) as (N & SG & R1 & _). fold n in N. rewrite adda_lower by auto.
    assert (B : b n = PInf) by (unfold b, ac_ppf; destruct (Nat.eqb_spec n 0); [lia|]; now rewrite Nat.eqb_refl).
    rewrite B. assert (Z : forall a, bothx rho s a PInf = Phix a) by (intros a; destruct a; reflexivity). rewrite !Z.
    pose proof (size_pos n N) as P.
    unfold b. rewrite !(level cdf ppf n N CDF PPF) by lia. rewrite S_INR. field. lra.
  Qed.
  Theorem adda_symmetric i j : (i < n)%nat -> (j < n)%nat -> p i j = p j i.
  Proof.
    intros I J. destruct (adda_ok _ _ _ _ _ _ OK) as (N & SG & R1 & _). rewrite !p_entry by auto. f_equal.
    apply box_sym; [now apply s_pos|now apply s_sq].
  Qed.
  Theorem adda_uniform j : (j < n)%nat -> total n (fun i => / INR n * p i j) = / INR n.
  Proof.
    intros J. rewrite total_scal, (total_ext n _ (p j)); [rewrite adda_rows by auto; ring|].
    intros i I. now apply adda_symmetric.
  Qed.
  Theorem adda_mirror i j : (i < n)%nat -> (j < n)%nat -> p (n - 1 - i)%nat (n - 1 - j)%nat = p i j.
  Proof.
    intros I J. destruct (adda_ok _ _ _ _ _ _ OK) as (N & SG & R1 & _). fold n in N.
    pose proof (s_pos rho R1) as S0. pose proof (s_sq rho R1) as SS. fold s in S0, SS.
    assert (SS' : s * s = 1 - (- rho) * (- rho)) by lra.
    rewrite !p_entry by lia. f_equal.
    replace (S (n - 1 - i)) with (n - i)%nat by lia. replace (S (n - 1 - j)) with (n - j)%nat by lia.
    replace (n - 1 - i)%nat with (n - S i)%nat by lia. replace (n - 1 - j)%nat with (n - S j)%nat by lia.
    unfold b. rewrite !(level_neg cdf ppf n N CDF PPF) by lia. fold b.
    pose proof (box_neg (- rho) s (neg (b (S i))) (neg (b i)) (b j) (b (S j)) S0 SS') as E1. rewrite Ropp_involutive in E1.
    rewrite E1, (box_sym (- rho) s S0 SS'), (box_neg rho s (b j) (b (S j)) (b i) (b (S i)) S0 SS).
    now apply box_sym.
  Qed.
  Theorem adda_monotone i m : 0 <= rho -> (S i < n)%nat -> (m <= n)%nat -> total m (p (S i)) <= total m (p i).
  Proof.
    intros R I M. destruct (adda_ok _ _ _ _ _ _ OK) as (N & SG & R1 & _). fold n in N.
    pose proof (s_pos rho R1) as S0. pose proof (s_sq rho R1) as SS. fold s in S0, SS.
    rewrite !adda_lower by lia. pose proof (size_pos n N) as P. apply Rmult_le_compat_l; [lra|].
    destruct (level_mid ppf n N (S i) ltac:(lia)) as [c C]. fold b in C.
    pose proof (level_lt cdf ppf n N CDF PPF i ltac:(lia)) as L1. pose proof (level_lt cdf ppf n N CDF PPF (S i) ltac:(lia)) as L2.
    pose proof (level cdf ppf n N CDF PPF i ltac:(lia)) as V0. pose proof (level cdf ppf n N CDF PPF (S i) ltac:(lia)) as V1.
    pose proof (level cdf ppf n N CDF PPF (S (S i)) ltac:(lia)) as V2. fold b in L1, L2, V0, V1, V2.
    rewrite !C in *. apply cell_order; auto. rewrite V0, V1, V2, !S_INR. field. lra.
  Qed.
  Theorem adda_independent i j : rho = 0 -> (i < n)%nat -> (j < n)%nat -> p i j = / INR n.
  Proof.
    intros R I J. destruct (adda_ok _ _ _ _ _ _ OK) as (N & SG & R1 & _). fold n in N.
    rewrite p_entry by auto. pose proof (size_pos n N) as P.
    assert (S1 : s = 1) by (unfold s; rewrite R, Rmult_0_l, Rminus_0_r; apply sqrt_1).
    assert (Z : forall a c, bothx rho s a c = Phix a * Phix c).
    { intros a c. rewrite R, S1. destruct a, c; cbn; try ring. apply both_zero. }
    unfold box. rewrite !Z. unfold b. rewrite !(level cdf ppf n N CDF PPF) by lia. rewrite !S_INR. field. lra.
  Qed.
End Ok.

Theorem adda_units cdf ppf iq iq' size alpha alpha' sigma sigma' rho p p' : normal_cdf cdf -> normal_quantile cdf ppf ->
  quad_exact cdf ppf iq (Z.to_nat size) alpha sigma rho -> quad_exact cdf ppf iq' (Z.to_nat size) alpha' sigma' rho ->
  approximation_adda iq size alpha sigma rho = Ok p -> approximation_adda iq' size alpha' sigma' rho = Ok p' ->
  forall i j, (i < Z.to_nat size)%nat -> (j < Z.to_nat size)%nat -> p i j = p' i j.
Proof.
  intros C P Q Q' O O' i j I J.
  rewrite (p_entry cdf ppf iq size alpha sigma rho p C Q O i j I J).
  now rewrite (p_entry cdf ppf iq' size alpha' sigma' rho p' C Q' O' i j I J).
Qed.
Theorem adda_reflected cdf ppf iq iq' size alpha sigma rho p p' : normal_cdf cdf -> normal_quantile cdf ppf ->
  quad_exact cdf ppf iq (Z.to_nat size) alpha sigma rho -> quad_exact cdf ppf iq' (Z.to_nat size) alpha sigma (- rho) ->
  approximation_adda iq size alpha sigma rho = Ok p -> approximation_adda iq' size alpha sigma (- rho) = Ok p' ->
  forall i j, (i < Z.to_nat size)%nat -> (j < Z.to_nat size)%nat -> p' i j = p i (Z.to_nat size - 1 - j)%nat.
Proof.
  intros C P Q Q' O O' i j I J.
  destruct (adda_ok _ _ _ _ _ _ O) as (N & SG & R1 & _).
  pose proof (s_pos rho R1) as S0. pose proof (s_sq rho R1) as SS.
  assert (J' : (Z.to_nat size - 1 - j < Z.to_nat size)%nat) by lia.
  rewrite (p_entry cdf ppf iq size alpha sigma rho p C Q O i _ I J').
  rewrite (p_entry cdf ppf iq' size alpha sigma (- rho) p' C Q' O' i j I J). f_equal.
  replace (- rho * - rho) with (rho * rho) by ring.
  set (n := Z.to_nat size) in *.
  replace (S (n - 1 - j)) with (n - j)%nat by lia. replace (n - 1 - j)%nat with (n - S j)%nat by lia.
  rewrite !(level_neg cdf ppf n N C P) by lia.
  assert (NN : forall e, neg (neg e) = e) by (intros [|x|]; cbn; auto; now rewrite Ropp_involutive).
  rewrite <- (box_neg rho _ _ _ (neg (ac_ppf ppf n (S j))) (neg (ac_ppf ppf n j)) S0 SS). now rewrite !NN.
Qed.

(** everything assumed of scipy can be met, for every accepted parameter *)
Definition quantile (u : R) : R :=
  match Rlt_dec 0 u with
  | left a => match Rlt_dec u 1 with left b => proj1_sig (Phi_onto u (conj a b)) | right _ => 0 end
  | right _ => 0
  end.
Lemma quantile_ok : normal_quantile Phi quantile.
Proof.
  intros u [A B]. unfold quantile. destruct (Rlt_dec 0 u); [|exfalso; lra]. destruct (Rlt_dec u 1); [|exfalso; lra].
  apply (proj2_sig (Phi_onto u (conj r r0))).
Qed.
Theorem adda_example size alpha sigma rho : (2 <= size)%Z -> 0 < sigma -> -1 < rho < 1 ->
  exists iq p, normal_cdf Phi /\ normal_quantile Phi quantile /\
    quad_exact Phi quantile iq (Z.to_nat size) alpha sigma rho /\ approximation_adda iq size alpha sigma rho = Ok p.
Proof.
  intros A B C. assert (R1 : 0 < 1 - rho * rho) by nra.
  pose proof (quad_exists Phi quantile (Z.to_nat size) alpha sigma rho B R1 Phi_normal) as Q.
  eexists. destruct (proj2 (adda_accepts (fun i j => ac_sigma sigma rho * sqrt (2 * PI) *
    box rho (sqrt (1 - rho * rho)) (ac_ppf quantile (Z.to_nat size) i) (ac_ppf quantile (Z.to_nat size) (S i))
      (ac_ppf quantile (Z.to_nat size) j) (ac_ppf quantile (Z.to_nat size) (S j))) size alpha sigma rho)
    (conj A (conj B C))) as [p E].
  exists p. split; [apply Phi_normal|]. split; [apply quantile_ok|]. split; [exact Q|exact E].
Qed.
