(** L_Gen5: the values of the AR(1) approximations and of the Dirichlet process. *)
From Verif Require Import S_Gen M_Generators S_Gen2 L_Gen1 L_Gen2.

(** * Rouwenhorst *)
Definition rexp (k : nat) (z : Qc) (i : nat) (f : nat -> Qc) : Qc :=
  sumn (k + 2) (fun j => mget (rouwenhorst k z) i j * f j)%Qc.

Lemma rexp_S k z i f : i < S k + 2 ->
  rexp (S k) z i f =
  ((if Nat.leb 1 i && Nat.ltb i (k + 2) then 1 / two else 1) *
   ((if Nat.ltb i (k + 2) then z * rexp k z i f + (1 - z) * rexp k z i (fun j => f (S j)) else 0) +
    (if Nat.leb 1 i then (1 - z) * rexp k z (i - 1) f + z * rexp k z (i - 1) (fun j => f (S j)) else 0)))%Qc.
Proof.
  intros Hi. unfold rexp at 1. cbn [rouwenhorst]. set (th := rouwenhorst k z) in *.
  assert (N : S k + 2 = (k + 2) + 1) by lia. assert (N1 : S k + 2 - 1 = k + 2) by lia.
  set (o := fun j : nat => (
     (if Nat.ltb j (k + 2) then (if Nat.ltb i (k + 2) then z * (mget th i j * f j) else 0) else 0)
   + (if Nat.leb 1 j then (if Nat.ltb i (k + 2) then (1 - z) * (mget th i (j - 1)%nat * f (S (j - 1))) else 0) else 0)
   + (if Nat.ltb j (k + 2) then (if Nat.leb 1 i then (1 - z) * (mget th (i - 1)%nat j * f j) else 0) else 0)
   + (if Nat.leb 1 j then (if Nat.leb 1 i then z * (mget th (i - 1)%nat (j - 1)%nat * f (S (j - 1))) else 0) else 0))%Qc).
  rewrite (sumn_ext _ _ (fun j => (if Nat.leb 1 i && Nat.ltb i (k + 2) then 1 / two else 1) * o j)%Qc).
  2:{ intros j Hj. rewrite mget_mk by assumption. rewrite N1. unfold o.
      destruct (Nat.leb_spec 1 i), (Nat.ltb_spec i (k + 2)), (Nat.leb_spec 1 j), (Nat.ltb_spec j (k + 2)); try lia; cbn [andb];
        try (replace (S (j - 1)) with j by lia); rewrite ?two_eq; unfold Qcdiv; try ring. }
  rewrite sumn_mul_l. f_equal. unfold o. rewrite N, !sumn_plus.
  rewrite !sumn_lt_if.
  rewrite (sumn_ge1_if _ (fun j => if Nat.ltb i (k + 2) then (1 - z) * (mget th i j * f (S j)) else 0)%Qc).
  rewrite (sumn_ge1_if _ (fun j => if Nat.leb 1 i then z * (mget th (i - 1)%nat j * f (S j)) else 0)%Qc).
  unfold rexp. fold th.
  destruct (Nat.ltb i (k + 2)), (Nat.leb 1 i); rewrite ?sumn_mul_l, ?(sumn_0 _ (fun _ => 0q)) by reflexivity; ring.
Qed.

Lemma rouwenhorst_gf k z t : forall i, i < k + 2 ->
  rexp k z i (fun j => qpow t j) = (qpow (z + (1 - z) * t) (k + 1 - i) * qpow (1 - z + z * t) i)%Qc.
Proof.
  induction k as [|k IH]; intros i Hi.
  - unfold rexp. destruct i as [|[|i]]; [| |lia]; cbn; ring.
  - rewrite rexp_S by exact Hi.
    assert (E : forall i, rexp k z i (fun j => qpow t (S j)) = (t * rexp k z i (fun j => qpow t j))%Qc).
    { intros l. unfold rexp. rewrite <- sumn_mul_l. apply sumn_ext. intros j _. cbn [qpow]. ring. }
    rewrite !E.
    destruct (Nat.ltb_spec i (k + 2)) as [L|L]; destruct (Nat.leb_spec 1 i) as [G|G]; cbn [andb].
    + destruct i as [|i]; [lia|]. replace (S i - 1) with i by lia. rewrite !IH by lia.
      replace (S k + 1 - S i) with (S (k + 1 - S i)) by lia. replace (k + 1 - i) with (S (k + 1 - S i)) by lia.
      cbn [qpow]. rewrite two_eq. field. discriminate.
    + assert (i = 0) as -> by lia. rewrite !IH by lia. replace (S k + 1 - 0) with (S (k + 1 - 0)) by lia. cbn [qpow]. ring.
    + assert (i = k + 2) as -> by lia. rewrite !IH by lia. replace (S k + 1 - (k + 2)) with 0 by lia. replace (k + 2 - 1) with (k + 1) by lia.
      replace (k + 1 - (k + 1)) with 0 by lia. replace (k + 2) with (S (k + 1)) by lia. cbn [qpow]. ring.
    + lia.
Qed.

Lemma rexp_one k z i : (0 <= z <= 1)%Qc -> i < k + 2 -> rexp k z i (fun _ => 1q) = 1q.
Proof.
  intros Hz Hi. unfold rexp. rewrite (sumn_ext _ _ (fun j => mget (rouwenhorst k z) i j)) by (intros; ring).
  apply (proj2 (proj2 (rouwenhorst_stochastic k z Hz)) i Hi).
Qed.
Lemma rexp_affine k z i a b f : (0 <= z <= 1)%Qc -> i < k + 2 -> rexp k z i (fun j => a * f j + b)%Qc = (a * rexp k z i f + b)%Qc.
Proof.
  intros Hz Hi. transitivity (a * rexp k z i f + b * rexp k z i (fun _ => 1q))%Qc; [|rewrite rexp_one by assumption; ring].
  unfold rexp. rewrite <- !sumn_mul_l, <- sumn_plus. apply sumn_ext. intros; ring.
Qed.

Lemma rouwenhorst_mean k z : (0 <= z <= 1)%Qc -> forall i, i < k + 2 ->
  rexp k z i Qcn = ((Qcn (k + 1) - Qcn i) * (1 - z) + Qcn i * z)%Qc.
Proof.
  intros Hz. induction k as [|k IH]; intros i Hi.
  - unfold rexp. destruct i as [|[|i]]; [| |lia]; cbn -[Qcn]; rewrite ?Qcn_1, ?Qcn_0; ring.
  - rewrite rexp_S by exact Hi.
    assert (E : forall l, l < k + 2 -> rexp k z l (fun j => Qcn (S j)) = (rexp k z l Qcn + 1)%Qc).
    { intros l Hl. transitivity (1 * rexp k z l Qcn + 1)%Qc; [|ring]. rewrite <- rexp_affine by assumption.
      unfold rexp. apply sumn_ext. intros j _. rewrite Qcn_S. ring. }
    destruct (Nat.ltb_spec i (k + 2)) as [L|L]; destruct (Nat.leb_spec 1 i) as [G|G]; cbn [andb].
    + destruct i as [|i]; [lia|]. replace (S i - 1) with i by lia. rewrite !E, !IH by lia.
      replace (S k + 1) with (S (k + 1)) by lia. rewrite !Qcn_S, two_eq. field. discriminate.
    + assert (i = 0) as -> by lia. rewrite !E, !IH by lia. replace (S k + 1) with (S (k + 1)) by lia. rewrite Qcn_S, Qcn_0. ring.
    + assert (i = k + 2) as -> by lia. rewrite !E, !IH by lia. replace (S k + 1) with (k + 2) by lia.
      replace (k + 2 - 1) with (k + 1) by lia. replace (k + 2) with (S (k + 1)) by lia. rewrite !Qcn_S. ring.
    + lia.
Qed.

Lemma rouwenhorst_rows F sq quad size sigma rho st c i t :
  approximation F sq quad size Rouwenhorst sigma rho st = Ok c -> i < Z.to_nat size ->
  let n := Z.to_nat size in let z := ((1 + rho) / Q2Qc 2)%Qc in
  sumn n (fun j => mget (ch_p c) i j * qpow t j)%Qc = (qpow (z + (1 - z) * t) (n - 1 - i) * qpow (1 - z + z * t) i)%Qc.
Proof.
  intros H Hi n z. apply approximation_inv in H. destruct H as (S0 & G & R & E & P). subst n.
  assert (N : Z.to_nat size = Z.to_nat size - 2 + 2) by lia. rewrite N at 1. rewrite P.
  etransitivity; [exact (rouwenhorst_gf (Z.to_nat size - 2) _ t i ltac:(lia))|].
  replace (Z.to_nat size - 2 + 1 - i) with (Z.to_nat size - 1 - i) by lia. reflexivity.
Qed.
Lemma rouwenhorst_autocorrelation F sq quad size sigma rho st c i :
  approximation F sq quad size Rouwenhorst sigma rho st = Ok c -> i < Z.to_nat size ->
  let n := Z.to_nat size in let y j := (Qcn j - Qcn (n - 1) / Q2Qc 2)%Qc in
  sumn n (fun j => mget (ch_p c) i j * y j)%Qc = (rho * y i)%Qc.
Proof.
  intros H Hi n y. apply approximation_inv in H. destruct H as (S0 & G & R & E & P). subst n.
  assert (N : Z.to_nat size = Z.to_nat size - 2 + 2) by lia. rewrite N at 1. rewrite P.
  assert (Z := half_range rho R). set (z := ((1 + rho) / two)%Qc) in *. set (k := Z.to_nat size - 2) in *.
  change (rexp k z i y = (rho * y i)%Qc). unfold y.
  transitivity (1 * rexp k z i Qcn + - (Qcn (Z.to_nat size - 1) / Q2Qc 2))%Qc.
  { rewrite <- rexp_affine by (assumption || lia). unfold rexp. apply sumn_ext. intros. ring. }
  rewrite rouwenhorst_mean by (assumption || lia). replace (Z.to_nat size - 1) with (k + 1) by lia.
  unfold z. change (Q2Qc 2) with two. rewrite two_eq. field. discriminate.
Qed.

(** * Tauchen *)
Lemma tauchen_cells F sq quad size sigma rho k st c i m :
  approximation F sq quad size (Tauchen k) sigma rho st = Ok c -> isclose rho 1 = false ->
  i < Z.to_nat size -> m + 1 < Z.to_nat size ->
  let n := Z.to_nat size in
  let b := (sq (sigma * sigma / (1 - rho * rho)) * match k with Some k => k | None => Q2Qc 3 end)%Qc in
  let x j := (- b + Qcn j * (Q2Qc 2 * b / Qcn (n - 1)))%Qc in
  sumn (m + 1) (fun j => mget (ch_p c) i j) = F (((x m + x (m + 1)%nat) / Q2Qc 2 - rho * x i) / sigma)%Qc.
Proof.
  intros H Hr Hi Hm n b x. apply approximation_inv in H. destruct H as (S0 & G & R & E & K & P).
  unfold mc_tauchen in P. rewrite Hr in P.
  destruct (Qceqb_spec (1 - rho * rho)%Qc 0q) as [Z|Z]; [discriminate|]. cbn [negb] in P. injection P as P.
  assert (Hs : sigma <> 0q) by (intros ->; discriminate G).
  assert (Hn : Qcn (n - 1) <> 0q) by (apply Qc_lt_neq, Qcn_pos; unfold n; lia).
  fold n in P, Hi, Hm. change (opt_get (Q2Qc 3) k) with (match k with Some k => k | None => Q2Qc 3 end) in P. fold b in P.
  assert (X : forall j, linspace (- b) b n j = x j).
  { intros j. unfold linspace, x. change (Q2Qc 2) with two. rewrite two_eq. unfold Qcdiv. ring. }
  assert (ST : (half * ((b - - b) / Qcn (n - 1)))%Qc = (b / Qcn (n - 1))%Qc).
  { change half with (Q2Qc (1 # 2)). replace (Q2Qc (1 # 2)) with (1 / two)%Qc by (apply Qc_is_canon; reflexivity). rewrite two_eq. field. split; [exact Hn|discriminate]. }
  assert (MID : forall j, ((x j + x (j + 1)%nat) / Q2Qc 2)%Qc = (x j + b / Qcn (n - 1))%Qc).
  { intros j. unfold x. rewrite Qcn_add, Qcn_1. change (Q2Qc 2) with two. rewrite two_eq. field. split; [exact Hn|discriminate]. }
  rewrite MID. rewrite <- P.
  induction m as [|m IH].
  - cbn [Nat.add sumn]. rewrite mget_mk by lia. cbn [Nat.eqb]. rewrite ST, !X.
    replace (x 0%nat + b / Qcn (n - 1) - rho * x i)%Qc with (x 0%nat - rho * x i + b / Qcn (n - 1))%Qc by ring. ring.
  - cbn [Nat.add sumn]. rewrite IH by lia. rewrite mget_mk by lia. replace (m + 1) with (S m) by lia. change (S m =? 0) with false. cbv iota.
    destruct (Nat.eqb_spec (S m) (n - 1)); [lia|]. rewrite ST, !X.
    replace (x m + b / Qcn (n - 1) - rho * x i)%Qc with (x (S m) - rho * x i - b / Qcn (n - 1))%Qc.
    2:{ unfold x. rewrite Qcn_S. change (Q2Qc 2) with two. rewrite two_eq. field. exact Hn. }
    replace (x (S m) + b / Qcn (n - 1) - rho * x i)%Qc with (x (S m) - rho * x i + b / Qcn (n - 1))%Qc by ring. ring.
Qed.

(** * Dirichlet process *)
Lemma gem_weights_stick ds : forall a j, j < length ds ->
  nth j (gem_weights a ds) 0q = ((1 - a) * (remaining (fun l => nth l ds 0q) j * nth j ds 0q))%Qc.
Proof.
  induction ds as [|d ds IH]; intros a j Hj; [cbn in Hj; lia|].
  destruct j as [|j].
  - cbn. ring.
  - change (nth (S j) (gem_weights a (d :: ds)) 0q) with (nth j (gem_weights (a + (1 - a) * d)%Qc ds) 0q).
    change (nth (S j) (d :: ds) 0q) with (nth j ds 0q). rewrite IH by (cbn in Hj; lia).
    assert (E : forall l, remaining (fun l => nth l (d :: ds) 0q) (S l) = ((1 - d) * remaining (fun l => nth l ds 0q) l)%Qc).
    { induction l as [|l IHl]; [cbn; ring|].
      change (remaining (fun l => nth l (d :: ds) 0q) (S (S l))) with (remaining (fun l => nth l (d :: ds) 0q) (S l) * (1 - nth l ds 0q))%Qc.
      rewrite IHl. cbn [remaining]. ring. }
    rewrite E. ring.
Qed.
Lemma gem_allocation_stick ds j : j < length ds ->
  nth j (gem_allocation ds) 0q = (stick ds j / sumn (length ds) (stick ds))%Qc.
Proof.
  intros Hj. unfold gem_allocation.
  assert (W : forall l, l < length ds -> nth l (gem_weights 0q ds) 0q = stick ds l).
  { intros l Hl. rewrite gem_weights_stick by exact Hl. unfold stick. ring. }
  rewrite (nth_indep _ 0q ((fun x => x / lsum (gem_weights 0q ds)) 0q)%Qc) by (rewrite map_length, gem_weights_length; exact Hj).
  rewrite (map_nth (fun x => x / lsum (gem_weights 0q ds))%Qc). cbn beta. rewrite W by exact Hj. f_equal.
  rewrite lsum_nth, gem_weights_length. apply sumn_ext. intros l Hl. apply W, Hl.
Qed.
Lemma dirichlet_stick size draws shift i j : wf size size draws -> i < size -> j < size ->
  mget (mc_dirichlet_process size draws None shift) i j =
  (stick (nth i draws []) (if shift then size - 1 - j else j) / sumn size (stick (nth i draws [])))%Qc.
Proof.
  intros W Hi Hj. assert (L : length (nth i draws []) = size) by (apply W, nth_In; rewrite (proj1 W); exact Hi).
  assert (A : length (gem_allocation (nth i draws [])) = size) by (unfold gem_allocation; rewrite map_length, gem_weights_length; exact L).
  unfold mc_dirichlet_process. cbn zeta.
  assert (R : nth i (map gem_allocation draws) [] = gem_allocation (nth i draws [])) by exact (map_nth gem_allocation draws [] i).
  unfold mget. destruct shift.
  - assert (RR : nth i (map (@rev Qc) (map gem_allocation draws)) [] = rev (gem_allocation (nth i draws []))).
    { rewrite <- R. exact (map_nth (@rev Qc) (map gem_allocation draws) [] i). }
    rewrite RR, rev_nth by (rewrite A; exact Hj). rewrite A, gem_allocation_stick by lia. rewrite L.
    replace (size - S j) with (size - 1 - j) by lia. reflexivity.
  - rewrite R, gem_allocation_stick by lia. rewrite L. reflexivity.
Qed.
