(** L_Hussey2: the two-state case of the Tauchen-Hussey approximation. *)
From Verif Require Export L_Hussey.
From Coq Require Import Reals Lra Lia ZArith Bool List.
Import ListNotations.
Close Scope R_scope.
Open Scope nat_scope.
Open Scope res_scope.

Notation root := (sqrt (1 / 2)).
Lemma root_sq : (root * root = 1 / 2)%R. Proof. apply sqrt_sqrt. lra. Qed.
Lemma root_pos : (7 / 10 < root < 71 / 100)%R.
Proof. pose proof root_sq. assert (0 < root)%R by (apply sqrt_lt_R0; lra). split; nra. Qed.
Lemma const_pos : (0 < 1 / Rpower PI (1 / 4))%R.
Proof. apply Rdiv_lt_0_compat; [lra|]. unfold Rpower. apply exp_pos. Qed.

Lemma newton2 l z : (0 < z)%R -> let z' := (z / 2 + 1 / (4 * z))%R in exists pp,
  newton 2 (S l) z = if Rlt_dec (Rabs (z' - z)) (/ 10 ^ 14) then (if Nat.eqb l 0 then Err ValueErr else Ok (z', pp)) else newton 2 l z'.
Proof.
  intros Hz z'. set (c := (1 / Rpower PI (1 / 4))%R). pose proof const_pos as C. fold c in C.
  assert (S2 : (sqrt 2 * sqrt 2 = 2)%R) by (apply sqrt_sqrt; lra). assert (P2 : (0 < sqrt 2)%R) by (apply sqrt_lt_R0; lra).
  assert (H : hermite z 2 1 c 0 = ((sqrt 2 * c * (z * z) - c / sqrt 2)%R, (z * sqrt 2 * c)%R)).
  { cbn [hermite]. assert (E1 : sqrt (2 / INR 1) = sqrt 2) by (f_equal; cbn; field). assert (E2 : sqrt (2 / INR 2) = 1%R).
    { replace (2 / INR 2)%R with 1%R by (cbn; field). apply sqrt_1. }
    assert (E3 : sqrt ((INR 2 - 1) / INR 2) = (1 / sqrt 2)%R).
    { replace ((INR 2 - 1) / INR 2)%R with (/ 2)%R by (cbn; field). rewrite sqrt_inv. field. lra. }
    rewrite E1, E2, E3. f_equal; field; lra. }
  exists (sqrt (2 * INR 2) * (z * sqrt 2 * c))%R. cbn [newton]. fold c. rewrite H. 
  assert (E4 : sqrt (2 * INR 2) = 2%R). { replace (2 * INR 2)%R with (2 * 2)%R by (cbn; ring). apply sqrt_square. lra. }
  rewrite !E4. assert (PP : (0 < 2 * (z * sqrt 2 * c))%R). { apply Rmult_lt_0_compat; [lra|]. apply Rmult_lt_0_compat; [apply Rmult_lt_0_compat; assumption|exact C]. }
  destruct (Req_EM_T (2 * (z * sqrt 2 * c)) 0) as [X|X]; [lra|].
  assert (E5 : (z - (sqrt 2 * c * (z * z) - c / sqrt 2) / (2 * (z * sqrt 2 * c)))%R = z').
  { unfold z'. replace (c / sqrt 2)%R with (c * sqrt 2 / 2)%R.
    - field. repeat split; lra.
    - apply (Rmult_eq_reg_r (sqrt 2)); [|lra]. unfold Rdiv. rewrite !Rmult_assoc. rewrite (Rinv_l (sqrt 2)) by lra.
      replace (sqrt 2 * (/ 2 * sqrt 2))%R with (sqrt 2 * sqrt 2 * / 2)%R by ring. rewrite S2. field. }
  rewrite !E5. reflexivity.
Qed.
Lemma step_above z : (0 < z)%R -> (z / 2 + 1 / (4 * z) - root = (z - root) * (z - root) / (2 * z))%R.
Proof. intros H. pose proof root_sq. replace (1 / (4 * z))%R with (root * root / (2 * z))%R by (rewrite root_sq; field; lra). field. lra. Qed.
Lemma step_move z : (0 < z)%R -> (z - (z / 2 + 1 / (4 * z)) = (z - root) * (z + root) / (2 * z))%R.
Proof. intros H. pose proof root_sq. replace (1 / (4 * z))%R with (root * root / (2 * z))%R by (rewrite root_sq; field; lra). field. lra. Qed.
(** Where the iteration stops. *)
Lemma stop_close z : (root / 2 <= z)%R -> let z' := (z / 2 + 1 / (4 * z))%R in (Rabs (z' - z) < / 10 ^ 14)%R -> (root <= z' <= root + / 10 ^ 14)%R.
Proof.
  intros Hz z' D. pose proof root_pos as R. assert (P : (0 < z)%R) by lra. pose proof (step_above z P) as A. pose proof (step_move z P) as M. fold z' in A, M.
  set (d := (z - root)%R) in *. set (e := (/ 10 ^ 14)%R) in *. assert (I : (0 < / (2 * z))%R) by (apply Rinv_0_lt_compat; lra).
  assert (Q1 : ((z + root) / (2 * z) >= 1 / 2)%R). { apply Rle_ge. apply (Rmult_le_reg_r (2 * z)); [lra|]. unfold Rdiv. rewrite (Rmult_assoc (z + root)), Rinv_l by lra. lra. }
  assert (D2 : (Rabs d * (1 / 2) <= e)%R).
  { apply Rle_trans with (Rabs (z' - z)); [|lra]. rewrite Rabs_minus_sym, M.
    replace (d * (z + root) / (2 * z))%R with (d * ((z + root) / (2 * z)))%R by (field; lra). rewrite Rabs_mult, (Rabs_pos_eq ((z + root) / (2 * z))) by lra.
    apply Rmult_le_compat_l; [apply Rabs_pos|lra]. }
  assert (Q2 : (Rabs d / (2 * z) <= 1 / 2)%R).
  { apply (Rmult_le_reg_r (2 * z)); [lra|]. unfold Rdiv. rewrite (Rmult_assoc (Rabs d)), Rinv_l by lra. unfold d. unfold Rabs. destruct (Rcase_abs (z - root)); lra. }
  assert (Q3 : (d * d / (2 * z) = Rabs d * (Rabs d / (2 * z)))%R). { unfold Rdiv. rewrite <- Rmult_assoc. f_equal. rewrite <- Rabs_mult. symmetry. apply Rabs_pos_eq. nra. }
  assert (0 <= Rabs d * (Rabs d / (2 * z)))%R. { apply Rmult_le_pos; [apply Rabs_pos|]. apply Rmult_le_pos; [apply Rabs_pos|lra]. }
  assert (Rabs d * (Rabs d / (2 * z)) <= Rabs d * (1 / 2))%R by (apply Rmult_le_compat_l; [apply Rabs_pos|exact Q2]). lra.
Qed.
Lemma newton2_converges : forall m l z, (root <= z)%R -> (z - root <= 2 ^ m * (9 * / 10 ^ 15))%R -> m + 2 <= l ->
  exists z' pp, newton 2 l z = Ok (z', pp) /\ (root <= z' <= root + / 10 ^ 14)%R.
Proof.
  induction m as [|m IH]; intros l z Hz D L; (destruct l as [|l]; [lia|]); pose proof root_pos as R; (assert (P : (0 < z)%R) by lra);
    destruct (newton2 l z P) as (pp & E); rewrite E; pose proof (step_above z P) as A; pose proof (step_move z P) as M; set (z' := (z / 2 + 1 / (4 * z))%R) in *;
    (assert (I : (0 < / (2 * z))%R) by (apply Rinv_0_lt_compat; lra)).
  all: assert (Up : (root <= z')%R) by (assert (0 <= (z - root) * (z - root) / (2 * z))%R by (apply Rmult_le_pos; [nra|lra]); lra).
  all: assert (Hf : (z' - root <= (z - root) / 2)%R) by (rewrite A; unfold Rdiv; rewrite Rmult_assoc; apply Rmult_le_compat_l; [lra|];
      apply (Rmult_le_reg_r (2 * z)); [lra|]; rewrite Rmult_assoc, Rinv_l by lra; lra).
  - assert (T : (Rabs (z' - z) < / 10 ^ 14)%R).
    { rewrite Rabs_minus_sym, Rabs_pos_eq by lra. apply Rle_lt_trans with (z - root)%R; [lra|]. apply Rle_lt_trans with (2 ^ 0 * (9 * / 10 ^ 15))%R; [exact D|].
      replace (/ 10 ^ 14)%R with (10 * / 10 ^ 15)%R by (field; lra). assert (0 < / 10 ^ 15)%R by (apply Rinv_0_lt_compat, pow_lt; lra). lra. }
    destruct (Rlt_dec (Rabs (z' - z)) (/ 10 ^ 14)); [|contradiction]. destruct (Nat.eqb_spec l 0); [lia|]. exists z', pp. split; [reflexivity|]. apply stop_close; [lra|exact T].
  - destruct (Rlt_dec (Rabs (z' - z)) (/ 10 ^ 14)) as [T|T].
    + destruct (Nat.eqb_spec l 0); [lia|]. exists z', pp. split; [reflexivity|]. apply stop_close; [lra|exact T].
    + apply IH; [exact Up| |lia]. change (2 ^ S m)%R with (2 * 2 ^ m)%R in D. set (q := (2 ^ m * (9 * / 10 ^ 15))%R) in *. replace (2 * 2 ^ m * (9 * / 10 ^ 15))%R with (2 * q)%R in D by (unfold q; ring). lra.
Qed.
Lemma guess2 : exists z0, guess 2 0 0%R (fun _ => 0%R) = Ok z0 /\ (37 / 100 <= z0 <= 2237 / 1000)%R.
Proof.
  eexists. split; [reflexivity|]. replace (2 * INR 2 + 1)%R with 5%R by (cbn; ring). 
  assert (S5 : (sqrt 5 * sqrt 5 = 5)%R) by (apply sqrt_sqrt; lra). assert (P5 : (0 < sqrt 5)%R) by (apply sqrt_lt_R0; lra).
  assert (B : (2236 / 1000 <= sqrt 5 <= 2237 / 1000)%R) by (split; nra).
  assert (Q : (0 < Rpower 5 (- (16393 / 100000)) <= 1)%R).
  { split; [unfold Rpower; apply exp_pos|]. rewrite <- (Rpower_O 5) by lra. apply Rle_Rpower; lra. }
  lra.
Qed.
Lemma pow48 : (2 <= 2 ^ 48 * (9 * / 10 ^ 15))%R.
Proof. replace (2 ^ 48)%R with 281474976710656%R by (cbn [pow]; ring). replace (10 ^ 15)%R with 1000000000000000%R by (cbn [pow]; ring). lra. Qed.
Lemma newton2_ok : exists z0 z pp, guess 2 0 0%R (fun _ => 0%R) = Ok z0 /\ newton 2 100 z0 = Ok (z, pp) /\ (root <= z <= root + / 10 ^ 14)%R.
Proof.
  destruct guess2 as (z0 & G & B). exists z0. pose proof root_pos as R. assert (P : (0 < z0)%R) by lra. destruct (newton2 99 z0 P) as (pp & E).
  pose proof (step_above z0 P) as A. set (z1 := (z0 / 2 + 1 / (4 * z0))%R) in *.
  assert (I : (0 < / (2 * z0))%R) by (apply Rinv_0_lt_compat; lra).
  assert (Up : (root <= z1)%R) by (assert (0 <= (z0 - root) * (z0 - root) / (2 * z0))%R by (apply Rmult_le_pos; [exact (Rle_0_sqr (z0 - root))|lra]); lra).
  destruct (Rlt_dec (Rabs (z1 - z0)) (/ 10 ^ 14)) as [T|T].
  - exists z1, pp. split; [exact G|]. split; [rewrite E; reflexivity|]. apply stop_close; [lra|exact T].
  - assert (Z1 : (z1 <= 2)%R).
    { unfold z1. assert (1 / (4 * z0) <= 7 / 10)%R. { apply (Rmult_le_reg_r (4 * z0)); [lra|]. unfold Rdiv at 1. rewrite Rmult_assoc, Rinv_l by lra. lra. } lra. }
    destruct (newton2_converges 48 99 z1 Up) as (z & pp' & N & C); [pose proof pow48; lra|lia|]. exists z, pp'. split; [exact G|]. split; [rewrite E; exact N|exact C].
Qed.
Lemma hussey_two alpha sigma rho k : (0 < sigma)%R -> (-1 <= rho <= 1)%R -> (0 < k)%R ->
  exists p z, approximation_hussey 2 alpha sigma rho (Some k) = Ok p /\ (root <= z <= root + / 10 ^ 14)%R /\
    p 0 0 = p 1 1 /\ p 0 1 = p 1 0 /\ p 0 0 = (p 0%nat 1%nat * exp (8 * rho * ((k * z / sigma) * (k * z / sigma))))%R.
Proof.
  intros Hs R Hk. destruct newton2_ok as (z0 & z & pp & G & N & B).
  assert (Q : exists nd w, quads 2 = Ok (nd, w) /\ nd 0 = (- z)%R /\ nd 1 = z).
  { unfold quads. change ((2 + 1) / 2) with 1. cbn [quadrature]. rewrite G. cbn [bind]. rewrite N. cbn [bind]. eexists. eexists. split; [reflexivity|]. split; reflexivity. }
  destruct Q as (nd & w & Q & N0 & N1). pose proof (hussey_ok 2 alpha sigma rho k) as O. rewrite Q in O. destruct O as (p & O).
  assert (H : approximation_hussey 2 alpha sigma rho (Some k) = Ok p).
  { unfold approximation_hussey. cbn [Z.leb Z.compare Pos.compare Pos.compare_cont]. destruct (Rlt_dec 0 sigma); [|contradiction]. destruct (Rle_dec (-1) rho); [|lra]. destruct (Rle_dec rho 1); [|lra].
    destruct (Rlt_dec 0 k); [|contradiction]. exact O. }
  exists p, z. split; [exact H|]. split; [exact B|].
  pose proof (hussey_mirror 2 alpha sigma rho (Some k) p H eq_refl) as MR. cbv zeta in MR. change (Z.to_nat 2) with 2 in MR.
  split; [exact (MR 1 1 ltac:(lia) ltac:(lia))|]. split; [exact (MR 1 0 ltac:(lia) ltac:(lia))|].
  destruct (hussey_inv 2 alpha sigma rho k p Hs Hk ltac:(lia) O) as (nd' & w' & Q' & W & E). rewrite Q in Q'. injection Q' as <- <-. rewrite !E by lia.
  assert (WE : w 1 = w 0).
  { pose proof (quad_mirror 2 1 0 0%R (fun _ => 0%R) (fun _ => 0%R) nd w ltac:(lia) ltac:(lia) Q ltac:(lia) 0 ltac:(lia) ltac:(lia)) as (_ & X). exact X. }
  assert (S0 : (0 < rsum 2 (cell sigma rho k nd w 0%nat))%R) by (apply rsum_pos; [lia|]; intros j Hj; apply cell_pos; auto).
  assert (C : (cell sigma rho k nd w 0%nat 0%nat = cell sigma rho k nd w 0%nat 1%nat * exp (8 * rho * ((k * z / sigma) * (k * z / sigma))))%R).
  { unfold cell. rewrite N0, N1, WE. replace (2 * k * - z)%R with (- (2 * k * z))%R by ring. rewrite npdf_even.
    assert (EX : (npdf (2 * k * (- z - rho * - z)) 0 sigma = npdf (2 * k * (z - rho * - z)) 0 sigma * exp (8 * rho * ((k * z / sigma) * (k * z / sigma))))%R).
    { unfold npdf. pose proof sqrt_2pi. 
      replace (exp (- ((2 * k * (- z - rho * - z) - 0) / sigma * ((2 * k * (- z - rho * - z) - 0) / sigma)) / 2)) with
        (exp (- ((2 * k * (z - rho * - z) - 0) / sigma * ((2 * k * (z - rho * - z) - 0) / sigma)) / 2) * exp (8 * rho * (k * z / sigma * (k * z / sigma))))%R.
      - field. lra.
      - rewrite <- exp_plus. f_equal. field. lra. }
    rewrite EX. pose proof (npdf_pos (2 * k * z) 0 k Hk). field. lra. }
  rewrite C. field. lra.
Qed.
Lemma exp_low x : (0 <= x)%R -> (1 + x + x * x / 2 <= exp x)%R.
Proof.
  intros H. destruct (Req_dec x 0) as [->|N]; [rewrite exp_0; lra|].
  assert (P : (0 < x)%R) by lra.
  set (f := fun t => (exp t - (1 + t + t * t / 2))%R). set (f' := fun t => (exp t - (1 + t))%R).
  assert (D : forall t, derivable_pt_lim f t (f' t)).
  { intros t. unfold f, f'. apply derivable_pt_lim_minus; [apply derivable_pt_lim_exp|].
    replace (1 + t)%R with (0 + 1 + (1 * t + t * 1) * / 2)%R by lra.
    apply (derivable_pt_lim_plus (fun t => (1 + t)%R) (fun t => (t * t / 2)%R)).
    - apply (derivable_pt_lim_plus (fun _ => 1%R) (fun t => t)); [apply derivable_pt_lim_const|apply derivable_pt_lim_id].
    - replace ((1 * t + t * 1) * / 2)%R with ((1 * t + t * 1) * / 2 + t * t * 0)%R by ring.
      apply (derivable_pt_lim_mult (fun t => (t * t)%R) (fun _ => (/ 2)%R)); [|apply derivable_pt_lim_const].
      apply (derivable_pt_lim_mult (fun t => t) (fun t => t)); apply derivable_pt_lim_id. }
  destruct (MVT_cor2 f f' 0 x P (fun c _ => D c)) as (c & Ec & Hc).
  assert (0 <= f' c)%R. { unfold f'. pose proof (exp_ineq1_le c). lra. }
  unfold f in Ec at 1 2. rewrite exp_0 in Ec. nra.
Qed.
Lemma hussey_persistence : exists p, approximation_hussey 2 0 1 (1 / 10) None = Ok p /\
  (forall j, j < 2 -> (1 / 2 * p 0%nat j + 1 / 2 * p 1%nat j = 1 / 2)%R) /\
  let y (i : nat) := match i with O => (-1)%R | _ => 1%R end in
  (19 / 100 < rsum 2 (fun i => 1 / 2 * y i * rsum 2 (fun j => p i j * y j)))%R.
Proof.
  set (k := ((1 / 2 + (1 / 10) / 4) * 1 + (1 - (1 / 2 + (1 / 10) / 4)) * (1 / sqrt (1 - (1 / 10) * (1 / 10))))%R).
  set (q := sqrt (1 - (1 / 10) * (1 / 10))) in k. assert (Q2 : (q * q = 1 - (1 / 10) * (1 / 10))%R) by (apply sqrt_sqrt; lra). assert (Q0 : (0 < q)%R) by (apply sqrt_lt_R0; lra).
  assert (Q1 : (q <= 1)%R) by nra. assert (IQ : (1 <= 1 / q)%R) by (apply (Rmult_le_reg_r q); [exact Q0|]; unfold Rdiv; rewrite Rmult_assoc, Rinv_l by lra; lra).
  assert (K : (1 <= k)%R) by (unfold k; lra).
  destruct (hussey_two 0 1 (1 / 10) k ltac:(lra) ltac:(lra) ltac:(lra)) as (p & z & H & B & E00 & E01 & EX).
  assert (H' : approximation_hussey 2 0 1 (1 / 10) None = Ok p).
  { rewrite <- H. unfold approximation_hussey. destruct (Rlt_dec 0 1); [|lra]. destruct (Rle_dec (-1) (1 / 10)); [|lra]. destruct (Rle_dec (1 / 10) 1); [|lra].
    destruct (Rlt_dec 0 k); [|lra]. cbv zeta. destruct (Req_EM_T (1 - 1 / 10 * (1 / 10)) 0); [lra|]. reflexivity. }
  exists p. split; [exact H'|]. destruct (hussey_stochastic _ _ _ _ _ _ H') as (Ps & Sm). change (Z.to_nat 2) with 2 in *.
  pose proof (Sm 0 ltac:(lia)) as S0. unfold rsum in S0. cbn in S0. pose proof (Ps 0 1 ltac:(lia) ltac:(lia)) as P01. 
  split.
  - intros [|[|j]] Hj; [| |lia]; rewrite <- ?E00, <- ?E01; lra.
  - cbv zeta. unfold rsum. cbn. rewrite <- E00, <- E01. 
    set (u := (8 * (1 / 10) * (k * z / 1 * (k * z / 1)))%R) in EX. pose proof root_pos as R. pose proof root_sq as RS.
    assert (U : (4 / 10 <= u)%R). { unfold u. assert (1 / 2 <= k * z / 1 * (k * z / 1))%R. { unfold Rdiv. rewrite Rinv_1, !Rmult_1_r. assert (root <= k * z)%R by nra. nra. } lra. }
    assert (V : (148 / 100 <= exp u)%R). { pose proof (exp_low u ltac:(lra)). nra. }
    nra.
Qed.
