(** L_Classic2: stationary distributions of the generated chains. *)
From Verif Require Import S_Gen M_Generators S_Gen2 L_Gen1 L_Gen2 L_Gen5 L_PropsR L_Classic.
From Verif Require Export S_Classic.
Notation qpow := M_Generators.qpow.
Open Scope res_scope.

(** * Chains on a line *)
Lemma line_up n P : (forall i, S i < n -> edge P i (S i)) -> forall d i, i + d < n -> reach n (edge P) i (i + d).
Proof.
  intros U. induction d as [|d IH]; intros i H.
  - rewrite Nat.add_0_r. apply reach_refl. lia.
  - replace (i + S d) with (S (i + d)) by lia. apply (reach_trans n (edge P) i (i + d)); [apply IH; lia|].
    apply reach_step; try lia. apply U. lia.
Qed.
Lemma line_down n P : (forall i, S i < n -> edge P (S i) i) -> forall d i, i + d < n -> reach n (edge P) (i + d) i.
Proof.
  intros U. induction d as [|d IH]; intros i H.
  - rewrite Nat.add_0_r. apply reach_refl. lia.
  - replace (i + S d) with (S (i + d)) by lia. apply (reach_trans n (edge P) (S (i + d)) (i + d)); [|apply IH; lia].
    apply reach_step; try lia. apply U. lia.
Qed.
Lemma line_irreducible n P : (forall i, S i < n -> edge P i (S i)) -> (forall i, S i < n -> edge P (S i) i) -> irreducible n (edge P).
Proof.
  intros U D i j Hi Hj. destruct (Nat.le_gt_cases i j) as [L|L].
  - replace j with (i + (j - i)) by lia. apply line_up; [exact U|lia].
  - replace i with (j + (i - j)) by lia. apply line_down; [exact D|lia].
Qed.
(** Detailed balance determines the stationary distribution. *)
Lemma balance_pi n m v : env_ok n m -> irreducible n (edge (en_p m)) -> distribution n v ->
  (forall i j, i < n -> j < n -> (vget v i * mget (en_p m) i j = vget v j * mget (en_p m) j i)%Qc) ->
  stationary_distributions (en_p m) (en_comps m) = Ok [v] /\ is_reversible m = Ok true.
Proof.
  intros E I D B. destruct (one_pi n m E (irreducible_one n (en_p m) I)) as (pi & S1 & _ & Dp & Sp & U).
  assert (Sv : stationary n (en_p m) v).
  { split; [apply D|]. intros j Hj. rewrite (sumn_ext n _ (fun i => vget v j * mget (en_p m) j i)%Qc) by (intros i Hi; apply B; assumption).
    rewrite sumn_mul_l. destruct E as (_ & (_ & _ & R) & _). transitivity (vget v j * 1)%Qc; [f_equal; exact (R j Hj)|ring]. }
  rewrite (U v D Sv). split; [exact S1|].
  destruct (is_reversible_spec n m E (irreducible_one n (en_p m) I)) as (pi' & b & _ & _ & U' & Eb & _ & T & _).
  rewrite Eb. f_equal. apply T. apply balance_reversible. intros i j Hi Hj. rewrite <- (U' v D Sv). apply B; assumption.
Qed.
(** A line: only neighbours need to be balanced. *)
Lemma line_balance n (P : mat) (v : vec) : (forall i j, i < n -> j < n -> j <> i + 1 -> i <> j + 1 -> i <> j -> mget P i j = 0q) ->
  (forall i, S i < n -> (vget v i * mget P i (S i) = vget v (S i) * mget P (S i) i)%Qc) ->
  forall i j, i < n -> j < n -> (vget v i * mget P i j = vget v j * mget P j i)%Qc.
Proof.
  intros Z B i j Hi Hj. destruct (Nat.eq_dec i j) as [->|N]; [reflexivity|].
  destruct (Nat.eq_dec j (i + 1)) as [->|N1]; [rewrite Nat.add_1_r in *; apply B; assumption|].
  destruct (Nat.eq_dec i (j + 1)) as [->|N2]; [rewrite Nat.add_1_r in *; symmetry; apply B; assumption|].
  rewrite !Z by (assumption || lia). ring.
Qed.

Lemma Qcn_nz n : 0 < n -> Qcn n <> 0q.
Proof. intros H X. apply Qcn_pos in H. rewrite X in H. discriminate. Qed.
Lemma Qc_div_lt_1 a b : (0 < b -> a < b -> a / b < 1)%Qc.
Proof.
  intros B A. assert (E : (a / b * b = a)%Qc) by (apply Qc_div_mul; intros X; rewrite X in B; discriminate).
  destruct (Qclt_le_dec (a / b) 1) as [L|L]; [exact L|exfalso]. set (x := (a / b)%Qc) in *. qcnra.
Qed.
Lemma power_qpow x k : power x k = qpow x k.
Proof. induction k as [|k IH]; [reflexivity|]. cbn. rewrite IH. reflexivity. Qed.
Lemma fact_nz n : Qcn (fact n) <> 0q.
Proof. pose proof (lt_O_fact n). intros X. assert (0 < Qcn (fact n))%Qc by (apply Qcn_pos; lia). rewrite X in H0. discriminate. Qed.
Lemma binom_fact n : forall k, k <= n -> binom n k * (fact k * fact (n - k)) = fact n.
Proof.
  induction n as [|n IH]; intros k H; [replace k with 0 by lia; reflexivity|].
  destruct k as [|k]; [rewrite binom_0, Nat.sub_0_r; change (fact 0) with 1; lia|].
  change (binom (S n) (S k)) with (binom n k + binom n (S k)). replace (S n - S k) with (n - k) by lia.
  pose proof (IH k ltac:(lia)) as A. destruct (Nat.eq_dec k n) as [->|N].
  - rewrite (binom_gt n (S n)) by lia. rewrite Nat.sub_diag in *. rewrite Nat.add_0_r. cbn [fact] in *. nia.
  - pose proof (IH (S k) ltac:(lia)) as B. replace (n - k) with (S (n - S k)) in * by lia.
    assert (E : S n = S k + S (n - S k)) by lia. cbn [fact] in *. nia.
Qed.
Lemma choose_binom n k : k <= n -> choose n k = Qcn (binom n k).
Proof.
  intros H. unfold choose. rewrite <- (binom_fact n k H), !Qcn_mul. unfold Qcdiv. rewrite <- Qcmult_assoc, Qcmult_inv_r; [ring|].
  intros X. apply Qcmult_integral in X. destruct X as [X|X]; revert X; apply fact_nz.
Qed.
Lemma two_pow_nz n : qpow two n <> 0q.
Proof. induction n as [|n IH]; [discriminate|]. cbn [M_Generators.qpow]. intros X. apply Qcmult_integral in X. destruct X as [X|X]; [discriminate X|apply IH, X]. Qed.
Lemma two_pow_nonneg n : (0 <= qpow two n)%Qc.
Proof. apply qpow_nonneg. apply Qcleb_le. reflexivity. Qed.
Lemma binomial_dist N : distribution (N + 1) (tab (N + 1) (fun j => choose N j / power two N)%Qc).
Proof.
  split; [apply tab_length|]. assert (E : forall j, j < N + 1 -> vget (tab (N + 1) (fun j => choose N j / power two N)%Qc) j = (Qcn (binom N j) / qpow two N)%Qc).
  { intros j Hj. unfold vget. rewrite tab_nth by exact Hj. rewrite choose_binom, power_qpow by lia. reflexivity. }
  split.
  - intros i Hi. rewrite (E i Hi). apply Qc_div_nonneg; [apply Qcn_nonneg|]. pose proof (two_pow_nonneg N). pose proof (two_pow_nz N).
    destruct (Qcle_lt_or_eq _ _ H) as [X|X]; [exact X|exfalso; apply H0; symmetry; exact X].
  - rewrite (sumn_ext _ _ _ E), sumn_div, binom_total. unfold Qcdiv. apply Qcmult_inv_r, two_pow_nz.
Qed.

(** * Urns *)
Lemma urn_cells model k i j : i < k * 2 + 1 -> j < k * 2 + 1 -> 1 <= k ->
  let d := (k * 2)%nat in let x := (Qcn i / Qcn d)%Qc in
  mget (mc_urn_model model k) i j =
    match model with
    | Ehrenfest => if Nat.eqb (S j) i then x else if Nat.eqb j (S i) then (1 - x)%Qc else 0q
    | BernoulliLaplace => if Nat.eqb (S j) i then (x * x)%Qc else if Nat.eqb j i then (two * x * (1 - x))%Qc
                          else if Nat.eqb j (S i) then ((1 - x) * (1 - x))%Qc else 0q
    end.
Proof.
  intros Hi Hj Hk d x. unfold mc_urn_model. rewrite mget_mk by assumption. fold d. fold x.
  assert (Dn : Qcn d <> 0q) by (apply Qcn_nz; unfold d; lia).
  destruct (Nat.eqb_spec i 0) as [->|N0].
  - assert (x = 0q) as -> by (unfold x; rewrite Qcn_0; unfold Qcdiv; ring). unfold delta.
    destruct model, (Nat.eqb_spec 1 j); destruct (Nat.eqb_spec (S j) 0); try lia; destruct (Nat.eqb_spec j 0); try lia; destruct (Nat.eqb_spec j 1); try lia; try ring; try reflexivity.
  - destruct (Nat.eqb_spec i d) as [->|N1]; [|destruct model; reflexivity].
    assert (x = 1q) as -> by (unfold x, Qcdiv; apply Qcmult_inv_r, Dn). unfold delta.
    replace (d + 1 - 2) with (d - 1) by lia. unfold d in *.
    destruct model, (Nat.eqb_spec (k * 2 - 1) j); destruct (Nat.eqb_spec (S j) (k * 2)); try lia; destruct (Nat.eqb_spec j (k * 2)); try lia; destruct (Nat.eqb_spec j (S (k * 2))); try lia; try ring; try reflexivity.
Qed.
Lemma urn_inv model n st c : urn_model model n st = Ok c -> (1 <= n)%Z /\ ch_p c = mc_urn_model model (Z.to_nat n).
Proof.
  unfold urn_model. destruct (Z.leb_spec 1 n) as [H|H]; [|discriminate]. cbv iota.
  destruct (gen_states _ _ _) as [s|]; [|discriminate]. cbn. intros E. injection E as <-. split; [exact H|reflexivity].
Qed.
Lemma urn_half model k : 1 <= k -> forall i, i < k * 2 -> (0 < mget (mc_urn_model model k) i (S i))%Qc /\ (0 < mget (mc_urn_model model k) (S i) i)%Qc.
Proof.
  intros Hk i Hi. rewrite !urn_cells by lia. set (d := k * 2) in *.
  assert (Dp : (0 < Qcn d)%Qc) by (apply Qcn_pos; unfold d; lia).
  assert (A : (Qcn i / Qcn d < 1)%Qc) by (apply Qc_div_lt_1; [exact Dp|apply Qcn_lt; lia]).
  assert (B : (0 < Qcn (S i) / Qcn d)%Qc) by (apply Qc_div_pos; [apply Qcn_pos; lia|exact Dp]).
  set (x := (Qcn i / Qcn d)%Qc) in *. set (y := (Qcn (S i) / Qcn d)%Qc) in *.
  destruct model; rewrite !Nat.eqb_refl; (destruct (Nat.eqb_spec (S (S i)) i); [lia|]); try (destruct (Nat.eqb_spec (S i) i); [lia|]); split; first [qclra | apply Qc_mul_pos; qclra].
Qed.
Lemma urn_irreducible model k : 1 <= k -> irreducible (k * 2 + 1) (edge (mc_urn_model model k)).
Proof. intros Hk. apply line_irreducible; intros i Hi; apply (urn_half model k Hk i); lia. Qed.
Lemma urn_off model k i j : 1 <= k -> i < k * 2 + 1 -> j < k * 2 + 1 -> j <> i + 1 -> i <> j + 1 -> i <> j -> mget (mc_urn_model model k) i j = 0q.
Proof.
  intros Hk Hi Hj A B C. rewrite urn_cells by assumption.
  destruct model; destruct (Nat.eqb_spec (S j) i); try lia; try (destruct (Nat.eqb_spec j i); try lia); destruct (Nat.eqb_spec j (S i)); try lia; reflexivity.
Qed.
Lemma hyper_dist N : distribution (N + 1) (tab (N + 1) (fun j => choose N j * choose N j / choose (2 * N) N)%Qc).
Proof.
  split; [apply tab_length|].
  assert (E : forall j, j < N + 1 -> vget (tab (N + 1) (fun j => choose N j * choose N j / choose (2 * N) N)%Qc) j = (Qcn (binom N j) * Qcn (binom N j) / Qcn (binom (2 * N) N))%Qc).
  { intros j Hj. unfold vget. rewrite tab_nth by exact Hj. rewrite !choose_binom by lia. reflexivity. }
  assert (P : (0 < Qcn (binom (2 * N) N))%Qc) by (apply Qcn_pos; pose proof (binom_pos (2 * N) N ltac:(lia)); lia).
  split.
  - intros i Hi. rewrite (E i Hi). apply Qc_div_nonneg; [apply Qc_mul_nonneg; apply Qcn_nonneg|exact P].
  - rewrite (sumn_ext _ _ _ E), sumn_div, binom_squares. unfold Qcdiv. apply Qcmult_inv_r. intros X. rewrite X in P. discriminate.
Qed.
Lemma urn_pi model n st c m : urn_model model n st = Ok c -> en_p m = ch_p c ->
  let d := 2 * Z.to_nat n in env_ok (d + 1) m ->
  stationary_distributions (en_p m) (en_comps m) = Ok [tab (d + 1) (fun j =>
    match model with
    | Ehrenfest => choose d j / power two d
    | BernoulliLaplace => choose d j * choose d j / choose (2 * d) d
    end)%Qc] /\ is_reversible m = Ok true.
Proof.
  intros H Em d E. apply urn_inv in H. destruct H as [Hn P]. rewrite P in Em. set (k := Z.to_nat n) in *.
  assert (Hk : 1 <= k) by (unfold k; lia). assert (Ed : d = k * 2) by (unfold d; lia).
  assert (Dz : Qcn (k * 2) <> 0q) by (apply Qcn_nz; lia).
  apply (balance_pi (d + 1)).
  - exact E.
  - rewrite Em, Ed. apply urn_irreducible, Hk.
  - destruct model; [apply hyper_dist|apply binomial_dist].
  - rewrite Em, Ed. apply line_balance; [intros; apply urn_off; assumption|]. intros i Hi. rewrite !urn_cells by lia. rewrite !Nat.eqb_refl.
    unfold vget. rewrite !tab_nth by lia. pose proof (Qcn_absorb (k * 2) i ltac:(lia)) as A.
    destruct model; (destruct (Nat.eqb_spec (S (S i)) i); [lia|]); try (destruct (Nat.eqb_spec (S i) i); [lia|]); rewrite !(choose_binom (k * 2)) by lia.
    + rewrite !choose_binom by lia. set (a := Qcn (binom (k * 2) i)) in *. set (b := Qcn (binom (k * 2) (S i))) in *. set (y := Qcn (S i)) in *. set (x := Qcn i) in *. set (dd := Qcn (k * 2)) in *.
      transitivity (((dd - x) * a) * ((dd - x) * a) * (/ Qcn (binom (2 * (k * 2)) (k * 2)) * / dd * / dd))%Qc; [|rewrite <- A; unfold Qcdiv; ring].
      assert (I : (1 = dd * / dd)%Qc) by (symmetry; apply Qcmult_inv_r, Dz).
      unfold Qcdiv. transitivity (a * a * / Qcn (binom (2 * (k * 2)) (k * 2)) * ((dd * / dd - x * / dd) * (dd * / dd - x * / dd)))%Qc; [rewrite <- I; reflexivity|ring].
    + set (a := Qcn (binom (k * 2) i)) in *. set (b := Qcn (binom (k * 2) (S i))) in *. set (y := Qcn (S i)) in *. set (x := Qcn i) in *. set (dd := Qcn (k * 2)) in *.
      assert (I : (1 = dd * / dd)%Qc) by (symmetry; apply Qcmult_inv_r, Dz).
      transitivity (((dd - x) * a) * (/ power two (k * 2) * / dd))%Qc; [|rewrite <- A; unfold Qcdiv; ring].
      unfold Qcdiv. transitivity (a * / power two (k * 2) * (dd * / dd - x * / dd))%Qc; [rewrite <- I; reflexivity|ring].
Qed.
Lemma sumn_three n f i : 0 < i -> S i < n -> (forall j, j < n -> j <> i -> S j <> i -> j <> S i -> f j = 0q) ->
  sumn n f = (f (i - 1)%nat + f i + f (S i))%Qc.
Proof.
  intros A B Z. replace n with ((i - 1) + (3 + (n - i - 2))) by lia. rewrite !sumn_split.
  rewrite (sumn_0 (i - 1)) by (intros j Hj; apply Z; lia). rewrite (sumn_0 (n - i - 2)) by (intros j Hj; apply Z; lia).
  cbn [sumn]. replace (i - 1 + 0) with (i - 1) by lia. replace (i - 1 + 1) with i by lia. replace (i - 1 + 2) with (S i) by lia. ring.
Qed.
Lemma urn_mean model n st c i : urn_model model n st = Ok c -> let d := 2 * Z.to_nat n in i <= d ->
  sumn (d + 1) (fun j => mget (ch_p c) i j * Qcn j)%Qc = (Qcn i + 1 - two * (Qcn i / Qcn d))%Qc.
Proof.
  intros H d Hi. apply urn_inv in H. destruct H as [Hn P]. rewrite P. set (k := Z.to_nat n) in *.
  assert (Hk : 1 <= k) by (unfold k; lia). assert (Ed : d = k * 2) by (unfold d; lia). rewrite Ed in *. clear Ed d.
  assert (Dz : Qcn (k * 2) <> 0q) by (apply Qcn_nz; lia).
  destruct (Nat.eq_dec i 0) as [->|N0].
  - rewrite (sumn_single _ _ 1); [|lia|].
    + rewrite urn_cells by lia. rewrite Qcn_0, Qcn_1. destruct model; cbn [Nat.eqb]; unfold Qcdiv; ring.
    + intros j Hj N. rewrite urn_cells by lia. rewrite Qcn_0. destruct model, j as [|[|j]]; try lia; cbn [Nat.eqb]; rewrite ?Qcn_0; unfold Qcdiv; ring.
  - destruct (Nat.eq_dec i (k * 2)) as [->|N1].
    + rewrite (sumn_single _ _ (k * 2 - 1)); [|lia|].
      * rewrite urn_cells by lia. replace (S (k * 2 - 1)) with (k * 2) by lia. rewrite Nat.eqb_refl. rewrite Qcn_sub by lia. rewrite Qcn_1, two_eq.
        rewrite Qc_div_self by exact Dz. destruct model; ring.
      * intros j Hj N. rewrite urn_cells by lia. rewrite Qc_div_self by exact Dz.
        destruct model; destruct (Nat.eqb_spec (S j) (k * 2)); try lia; try (destruct (Nat.eqb_spec j (k * 2))); destruct (Nat.eqb_spec j (S (k * 2))); try lia; ring.
    + rewrite (sumn_three _ _ i) by (try lia; intros j Hj A B C; rewrite urn_off by lia; ring).
      rewrite !urn_cells by lia. replace (S (i - 1)) with i by lia. rewrite !Nat.eqb_refl. rewrite Qcn_sub, Qcn_1, Qcn_S by lia. set (x := (Qcn i / Qcn (k * 2))%Qc).
      destruct model; (destruct (Nat.eqb_spec (S i) i); [lia|]); (destruct (Nat.eqb_spec (S (S i)) i); [lia|]); try (destruct (Nat.eqb_spec i (S i)); [lia|]); rewrite two_eq; ring.
Qed.

(** * Rouwenhorst *)
Lemma rouw_gf2 k z s t :
  sumn (k + 2) (fun i => sumn (k + 2) (fun j => Qcn (binom (k + 1) i) * mget (rouwenhorst k z) i j * qpow t j) * qpow s i)%Qc
  = qpow (s * (1 - z + z * t) + (z + (1 - z) * t))%Qc (k + 1).
Proof.
  rewrite <- binomial_theorem. replace (S (k + 1)) with (k + 2) by lia. apply sumn_ext. intros i Hi.
  rewrite (sumn_ext (k + 2) _ (fun j => Qcn (binom (k + 1) i) * (mget (rouwenhorst k z) i j * qpow t j))%Qc) by (intros; ring).
  rewrite sumn_mul_l. pose proof (rouwenhorst_gf k z t i Hi) as G. unfold rexp in G. rewrite G.
  assert (M : forall n x y, qpow (x * y)%Qc n = (qpow x n * qpow y n)%Qc) by (induction n as [|n IH]; intros x y; cbn [M_Generators.qpow]; [ring|rewrite IH; ring]).
  rewrite M. ring.
Qed.
Lemma rouw_balance k z i j : i < k + 2 -> j < k + 2 ->
  (Qcn (binom (k + 1) i) * mget (rouwenhorst k z) i j = Qcn (binom (k + 1) j) * mget (rouwenhorst k z) j i)%Qc.
Proof.
  intros Hi Hj. set (f := fun i j => (Qcn (binom (k + 1) i) * mget (rouwenhorst k z) i j)%Qc).
  assert (E : forall i, i < k + 2 -> forall j, j < k + 2 -> (f i j - f j i)%Qc = 0q).
  { clear i j Hi Hj. intros i Hi.
    assert (F : forall t, sumn (k + 2) (fun j => (f i j - f j i) * qpow t j)%Qc = 0q).
    { intros t. apply (poly_zero (k + 2) (fun i => sumn (k + 2) (fun j => (f i j - f j i) * qpow t j)%Qc)); [|exact Hi]. intros s _ _.
      rewrite (sumn_ext (k + 2) _ (fun i => sumn (k + 2) (fun j => f i j * qpow t j) * qpow s i - sumn (k + 2) (fun j => f j i * qpow t j) * qpow s i)%Qc).
      2:{ intros a _. rewrite (sumn_ext _ _ (fun j => f a j * qpow t j - f j a * qpow t j)%Qc) by (intros; ring). rewrite sumn_minus. ring. }
      rewrite sumn_minus. pose proof (rouw_gf2 k z s t) as A. pose proof (rouw_gf2 k z t s) as B. fold (f) in A, B.
      assert (C : sumn (k + 2) (fun i => sumn (k + 2) (fun j => f j i * qpow t j) * qpow s i)%Qc = sumn (k + 2) (fun i => sumn (k + 2) (fun j => f i j * qpow s j) * qpow t i)%Qc).
      { rewrite (sumn_ext _ _ (fun i => sumn (k + 2) (fun j => f j i * qpow t j * qpow s i))%Qc) by (intros; rewrite sumn_mul_r; reflexivity).
        rewrite sumn_swap. apply sumn_ext. intros a _. rewrite <- sumn_mul_r. apply sumn_ext. intros; ring. }
      rewrite C. unfold f. rewrite A, B.
      replace (t * (1 - z + z * s) + (z + (1 - z) * s))%Qc with (s * (1 - z + z * t) + (z + (1 - z) * t))%Qc by ring. ring. }
    apply (poly_zero (k + 2) (fun j => f i j - f j i)%Qc). intros t _ _. apply F. }
  specialize (E i Hi j Hj). unfold f in E. transitivity (Qcn (binom (k + 1) j) * mget (rouwenhorst k z) j i + 0)%Qc; [rewrite <- E|]; ring.
Qed.
Lemma rouw_pos k z : (0 < z)%Qc -> (z < 1)%Qc -> forall i j, i < k + 2 -> j < k + 2 -> (0 < mget (rouwenhorst k z) i j)%Qc.
Proof.
  intros Z0 Z1. induction k as [|k IH]; intros i j Hi Hj.
  - destruct i as [|[|i]], j as [|[|j]]; try lia; cbn; qclra.
  - cbn [rouwenhorst]. rewrite mget_mk by lia. set (th := rouwenhorst k z) in *.
    replace (S k + 2 - 1) with (k + 2) by lia.
    assert (W : forall (b : bool) x, (b = true -> 0 < x)%Qc -> (0 <= (if b then x else 0))%Qc) by (intros [|] x H; [apply Qclt_le_weak, H; reflexivity|apply Qcle_refl]).
    set (t1 := if Nat.ltb i (k + 2) && Nat.ltb j (k + 2) then (z * mget th i j)%Qc else 0q). set (t2 := if Nat.ltb i (k + 2) && Nat.leb 1 j then ((1 - z) * mget th i (j - 1))%Qc else 0q).
    set (t3 := if Nat.leb 1 i && Nat.ltb j (k + 2) then ((1 - z) * mget th (i - 1) j)%Qc else 0q). set (t4 := if Nat.leb 1 i && Nat.leb 1 j then (z * mget th (i - 1) (j - 1))%Qc else 0q).
    assert (P1 : (0 <= t1)%Qc). { apply W. intros B. apply andb_true_iff in B. destruct B as [B1 B2]. apply Nat.ltb_lt in B1, B2. apply Qc_mul_pos; [exact Z0|apply IH; lia]. }
    assert (P2 : (0 <= t2)%Qc). { apply W. intros B. apply andb_true_iff in B. destruct B as [B1 B2]. apply Nat.ltb_lt in B1. apply Nat.leb_le in B2. apply Qc_mul_pos; [qclra|apply IH; lia]. }
    assert (P3 : (0 <= t3)%Qc). { apply W. intros B. apply andb_true_iff in B. destruct B as [B1 B2]. apply Nat.leb_le in B1. apply Nat.ltb_lt in B2. apply Qc_mul_pos; [qclra|apply IH; lia]. }
    assert (P4 : (0 <= t4)%Qc). { apply W. intros B. apply andb_true_iff in B. destruct B as [B1 B2]. apply Nat.leb_le in B1, B2. apply Qc_mul_pos; [exact Z0|apply IH; lia]. }
    assert (Q : (0 < t1 \/ 0 < t2 \/ 0 < t3 \/ 0 < t4)%Qc).
    { destruct (Nat.lt_ge_cases i (k + 2)) as [A|A], (Nat.lt_ge_cases j (k + 2)) as [B|B].
      - left. unfold t1. rewrite (proj2 (Nat.ltb_lt _ _) A), (proj2 (Nat.ltb_lt _ _) B). apply Qc_mul_pos; [exact Z0|apply IH; lia].
      - right; left. unfold t2. rewrite (proj2 (Nat.ltb_lt _ _) A), (proj2 (Nat.leb_le 1 j)) by lia. apply Qc_mul_pos; [qclra|apply IH; lia].
      - right; right; left. unfold t3. rewrite (proj2 (Nat.ltb_lt _ _) B), (proj2 (Nat.leb_le 1 i)) by lia. apply Qc_mul_pos; [qclra|apply IH; lia].
      - right; right; right. unfold t4. rewrite (proj2 (Nat.leb_le 1 i)), (proj2 (Nat.leb_le 1 j)) by lia. apply Qc_mul_pos; [exact Z0|apply IH; lia]. }
    assert (S0 : (0 < t1 + t2 + t3 + t4)%Qc) by (destruct Q as [Q|[Q|[Q|Q]]]; qclra).
    cbv zeta. destruct (Nat.leb 1 i && Nat.ltb i (k + 2)); [apply Qc_div_pos; [exact S0|reflexivity]|exact S0].
Qed.
Lemma rouw_pi F sq quad size sigma rho st c m : approximation F sq quad size Rouwenhorst sigma rho st = Ok c -> (-(1) < rho)%Qc -> (rho < 1)%Qc ->
  en_p m = ch_p c -> let n := Z.to_nat size in env_ok n m ->
  stationary_distributions (en_p m) (en_comps m) = Ok [tab n (fun j => choose (n - 1) j / power two (n - 1))%Qc] /\ is_reversible m = Ok true.
Proof.
  intros H R0 R1 Em n E. apply approximation_inv in H. destruct H as (S0 & _ & _ & _ & P). rewrite P in Em. fold n in Em.
  set (z := ((1 + rho) / two)%Qc) in *.
  assert (Ez : (z * (1 + 1) = 1 + rho)%Qc) by (unfold z; rewrite <- two_eq; apply Qc_div_mul; discriminate).
  assert (Z0 : (0 < z)%Qc) by qclra. assert (Z1 : (z < 1)%Qc) by qclra.
  set (k := n - 2) in *. assert (En : n = k + 2) by (unfold k, n; lia). clearbody k. rewrite En in *. replace (k + 2 - 1) with (k + 1) in * by lia.
  apply (balance_pi (k + 2)).
  - exact E.
  - rewrite Em. intros i j Hi Hj. apply reach_step; try assumption. apply rouw_pos; assumption.
  - pose proof (binomial_dist (k + 1)) as B. replace (k + 1 + 1) with (k + 2) in B by lia. exact B.
  - rewrite Em. intros i j Hi Hj. unfold vget. rewrite !tab_nth by assumption. rewrite !choose_binom by lia.
    pose proof (rouw_balance k z i j Hi Hj) as B. unfold Qcdiv.
    transitivity (Qcn (binom (k + 1) i) * mget (rouwenhorst k z) i j * / power two (k + 1))%Qc; [ring|]. rewrite B. ring.
Qed.
Lemma rouw_second k z : (0 <= z <= 1)%Qc -> forall i, i < k + 2 ->
  rexp k z i (fun j => Qcn j * Qcn j)%Qc =
  (Qcn (k + 1) * (z * (1 - z)) + ((Qcn (k + 1) - Qcn i) * (1 - z) + Qcn i * z) * ((Qcn (k + 1) - Qcn i) * (1 - z) + Qcn i * z))%Qc.
Proof.
  intros Hz. induction k as [|k IH]; intros i Hi.
  - unfold rexp. destruct i as [|[|i]]; [| |lia]; cbn -[Qcn]; rewrite ?Qcn_1, ?Qcn_0; ring.
  - rewrite rexp_S by exact Hi.
    assert (E : forall l, l < k + 2 -> rexp k z l (fun j => Qcn (S j) * Qcn (S j))%Qc = (rexp k z l (fun j => Qcn j * Qcn j) + ((1 + 1) * rexp k z l Qcn + 1))%Qc).
    { intros l Hl. rewrite <- (rexp_affine k z l (1 + 1)%Qc 1q Qcn Hz Hl). unfold rexp. rewrite <- sumn_plus. apply sumn_ext. intros j _. rewrite Qcn_S. ring. }
    destruct (Nat.ltb_spec i (k + 2)) as [L|L]; destruct (Nat.leb_spec 1 i) as [G|G]; cbn [andb].
    + destruct i as [|i]; [lia|]. replace (S i - 1) with i by lia. rewrite !E, !IH, !rouwenhorst_mean by (assumption || lia).
      replace (S k + 1) with (S (k + 1)) by lia. rewrite !Qcn_S, two_eq. field. discriminate.
    + assert (i = 0) as -> by lia. rewrite !E, !IH, !rouwenhorst_mean by (assumption || lia). replace (S k + 1) with (S (k + 1)) by lia. rewrite Qcn_S, Qcn_0. ring.
    + assert (i = k + 2) as -> by lia. rewrite !E, !IH, !rouwenhorst_mean by (assumption || lia). replace (S k + 1) with (k + 2) by lia.
      replace (k + 2 - 1) with (k + 1) by lia. replace (k + 2) with (S (k + 1)) by lia. rewrite !Qcn_S. ring.
    + lia.
Qed.
Lemma rouw_variance F sq quad size sigma rho st c i : approximation F sq quad size Rouwenhorst sigma rho st = Ok c ->
  let n := Z.to_nat size in i < n -> let y j := (Qcn j - Qcn (n - 1) / two)%Qc in
  sumn n (fun j => mget (ch_p c) i j * ((y j - rho * y i) * (y j - rho * y i)))%Qc = (Qcn (n - 1) * ((1 - rho * rho) / (two * two)))%Qc.
Proof.
  intros H n Hi y. apply approximation_inv in H. destruct H as (S0 & G & R & E & P). rewrite P.
  assert (Hz := half_range rho R). set (z := ((1 + rho) / two)%Qc) in *. fold n. set (k := n - 2). assert (En : n = k + 2) by (unfold k, n; lia).
  clearbody k. rewrite En in *. replace (k + 2 - 1) with (k + 1) in * by lia.
  assert (Y : forall j, y j = (Qcn j - Qcn (k + 1) / two)%Qc) by (intros j; unfold y; rewrite En; replace (k + 2 - 1) with (k + 1) by lia; reflexivity).
  clearbody y. set (a := (Qcn (k + 1) / two + rho * y i)%Qc).
  transitivity (rexp k z i (fun j => Qcn j * Qcn j + (- (two * a) * Qcn j + a * a))%Qc).
  { unfold rexp. apply sumn_ext. intros j _. unfold a. rewrite !Y, two_eq. ring. }
  transitivity (rexp k z i (fun j => Qcn j * Qcn j) + (- (two * a) * rexp k z i Qcn + a * a))%Qc.
  { rewrite <- (rexp_affine k z i (- (two * a))%Qc (a * a)%Qc Qcn Hz Hi). unfold rexp. rewrite <- sumn_plus. apply sumn_ext. intros; ring. }
  rewrite rouw_second, rouwenhorst_mean by assumption. unfold a, z. rewrite Y, two_eq. field. repeat split; discriminate.
Qed.

(** * Birth and death *)
Lemma ratios_pos p q n : (forall i, S i < n -> (0 < p i)%Qc /\ (0 < q (S i))%Qc) -> forall i, i < n -> (0 < ratios p q i)%Qc.
Proof.
  intros H. induction i as [|i IH]; intros Hi; [reflexivity|]. cbn [ratios]. destruct (H i Hi) as [A B].
  apply Qc_mul_pos; [apply IH; lia|]. apply Qc_div_pos; assumption.
Qed.
Lemma bd_pi p q st c m : birth_death p q st = Ok c ->
  (forall i, i < length p -> not_tiny (vget p i) /\ not_tiny (vget q i) /\ not_tiny (1 - vget p i - vget q i)%Qc) ->
  (forall i, S i < length p -> (0 < vget p i)%Qc /\ (0 < vget q (S i))%Qc) ->
  en_p m = ch_p c -> let n := length p in let w := ratios (vget p) (vget q) in env_ok n m ->
  stationary_distributions (en_p m) (en_comps m) = Ok [tab n (fun i => w i / sumn n w)%Qc] /\ is_reversible m = Ok true.
Proof.
  intros H NT Pos Em n w E. pose proof (bd_entries p q st c H NT) as Cell. rewrite <- Em in Cell.
  assert (W : forall i, i < n -> (0 < w i)%Qc) by (intros i Hi; exact (ratios_pos _ _ n Pos i Hi)).
  assert (Hn : 2 <= n) by exact (proj1 E).
  assert (S0 : (0 < sumn n w)%Qc) by (apply (sumn_pos n w 0); [lia|apply W; lia|intros i Hi; apply Qclt_le_weak, W, Hi]).
  assert (C1 : forall i, S i < n -> mget (en_p m) i (S i) = vget p i).
  { intros i Hi. rewrite Cell by (unfold n in *; lia). unfold bd_cell. rewrite Nat.add_1_r, Nat.eqb_refl. reflexivity. }
  assert (C2 : forall i, S i < n -> mget (en_p m) (S i) i = vget q (S i)).
  { intros i Hi. rewrite Cell by (unfold n in *; lia). unfold bd_cell. rewrite !Nat.add_1_r, Nat.eqb_refl. destruct (Nat.eqb_spec i (S (S i))); [lia|reflexivity]. }
  apply (balance_pi n).
  - exact E.
  - apply line_irreducible; intros i Hi; unfold edge; rewrite ?C1, ?C2 by exact Hi; apply Pos, Hi.
  - split; [apply tab_length|]. split.
    + intros i Hi. unfold vget. rewrite tab_nth by exact Hi. apply Qclt_le_weak, Qc_div_pos; auto.
    + rewrite (sumn_ext n _ (fun i => w i / sumn n w)%Qc) by (intros i Hi; unfold vget; rewrite tab_nth by exact Hi; reflexivity).
      rewrite sumn_div. apply Qc_div_self. intros X. rewrite X in S0. discriminate.
  - apply line_balance.
    + intros i j Hi Hj A B C. rewrite Cell by assumption. unfold bd_cell.
      destruct (Nat.eqb_spec j (i + 1)); [lia|]. destruct (Nat.eqb_spec i (j + 1)); [lia|]. destruct (Nat.eqb_spec i j); [lia|reflexivity].
    + intros i Hi. rewrite C1, C2 by exact Hi. unfold vget at 1 3. rewrite !tab_nth by lia.
      change (w (S i)) with (w i * (vget p i / vget q (S i)))%Qc.
      assert (Q0 : vget q (S i) <> 0q) by (intros X; destruct (Pos i Hi) as [_ B]; rewrite X in B; discriminate).
      transitivity (w i * (vget p i / vget q (S i) * vget q (S i)) * / sumn n w)%Qc; [rewrite Qc_div_mul by exact Q0|]; unfold Qcdiv; ring.
Qed.
