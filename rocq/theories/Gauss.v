(** Gauss: exact Gauss-Jordan elimination, the model of numpy.linalg.solve and
    numpy.linalg.inv.  LAPACK's LU factorisation with partial pivoting and this
    elimination compute the same (unique) solution in exact arithmetic and both
    report a singular matrix (LinAlgError) otherwise; rounding is not modelled. *)
From Verif Require Export Mat.

Section GJ.
Variable n w : nat.   (* n rows, w >= n columns: the augmented matrix *)

Definition gj_step (M : mat) (c : nat) : option mat :=
  match find (fun r => negb (Qceqb (mget M r c) 0)) (seq c (n - c)) with
  | None => None
  | Some r =>
      let M1 := mk n w (fun i j => mget M (if Nat.eqb i c then r else if Nat.eqb i r then c else i) j) in
      let piv := mget M1 c c in
      Some (mk n w (fun i j =>
        if Nat.eqb i c then (mget M1 c j / piv)%Qc
        else (mget M1 i j - mget M1 i c * (mget M1 c j / piv))%Qc))
  end.

Fixpoint gj_loop (M : mat) (cs : list nat) : option mat :=
  match cs with
  | [] => Some M
  | c :: cs' => match gj_step M c with None => None | Some M' => gj_loop M' cs' end
  end.

Definition kern (M : mat) (x : nat -> Qc) : Prop :=
  forall i, i < n -> sumn w (fun j => mget M i j * x j)%Qc = 0q.

Definition swp (c r i : nat) : nat := if Nat.eqb i c then r else if Nat.eqb i r then c else i.

Lemma swp_invol c r i : swp c r (swp c r i) = i.
Proof.
  unfold swp. destruct (Nat.eqb_spec i c) as [->|H1].
  - destruct (Nat.eqb_spec r c) as [->|H2]; [reflexivity|]. rewrite Nat.eqb_refl; reflexivity.
  - destruct (Nat.eqb_spec i r) as [->|H2].
    + rewrite Nat.eqb_refl; reflexivity.
    + destruct (Nat.eqb_spec i c); [contradiction|]. destruct (Nat.eqb_spec i r); [contradiction|reflexivity].
Qed.

Lemma swp_lt c r i : c < n -> r < n -> i < n -> swp c r i < n.
Proof. intros; unfold swp. destruct (Nat.eqb i c); [assumption|]. destruct (Nat.eqb i r); assumption. Qed.

Lemma gj_step_spec M c M' : n <= w -> c < n -> gj_step M c = Some M' ->
  exists r, c <= r < n /\ mget M r c <> 0q /\ wf n w M' /\
   forall i j, i < n -> j < w ->
     mget M' i j = if Nat.eqb i c then (mget M r j / mget M r c)%Qc
                   else (mget M (swp c r i) j - mget M (swp c r i) c * (mget M r j / mget M r c))%Qc.
Proof.
  intros Hw Hc. unfold gj_step.
  destruct (find _ (seq c (n - c))) as [r|] eqn:F; [|discriminate].
  apply find_some in F. destruct F as [Hin Hnz]. apply in_seq in Hin.
  apply negb_true_iff, Qceqb_neq in Hnz.
  intros E; inversion E; subst; clear E. exists r.
  split; [lia|]. split; [exact Hnz|]. split; [apply wf_mk|].
  intros i j Hi Hj. rewrite mget_mk by assumption.
  rewrite !mget_mk by lia. rewrite Nat.eqb_refl. fold (swp c r i). reflexivity.
Qed.

Lemma gj_step_kern M c M' x : n <= w -> c < n -> gj_step M c = Some M' -> (kern M x <-> kern M' x).
Proof.
  intros Hw Hc H. destruct (gj_step_spec _ _ _ Hw Hc H) as (r & Hr & Hnz & _ & HM').
  assert (Rc : sumn w (fun j => mget M' c j * x j)%Qc
             = (sumn w (fun j => mget M r j * x j) / mget M r c)%Qc).
  { rewrite <- sumn_div. apply sumn_ext; intros j Hj. rewrite HM' by assumption.
    rewrite Nat.eqb_refl. field; exact Hnz. }
  assert (Ri : forall i, i < n -> i <> c -> sumn w (fun j => mget M' i j * x j)%Qc
     = (sumn w (fun j => mget M (swp c r i) j * x j)
        - mget M (swp c r i) c / mget M r c * sumn w (fun j => mget M r j * x j))%Qc).
  { intros i Hi Hne. rewrite <- sumn_mul_l, <- sumn_minus. apply sumn_ext; intros j Hj.
    rewrite HM' by assumption. apply Nat.eqb_neq in Hne; rewrite Hne. field; exact Hnz. }
  split; intros HK i Hi.
  - destruct (Nat.eq_dec i c) as [->|Hne].
    + rewrite Rc, (HK r) by lia. field; exact Hnz.
    + rewrite Ri by assumption. rewrite (HK r), (HK (swp c r i)) by (try (apply swp_lt); lia).
      ring.
  - assert (Hr0 : sumn w (fun j => mget M r j * x j)%Qc = 0q).
    { assert (E := HK c Hc). rewrite Rc in E. unfold Qcdiv in E. apply Qcmult_integral in E.
      destruct E as [E|E]; [exact E|]. exfalso. apply Hnz.
      rewrite <- (Qcmult_1_r (mget M r c)), <- (Qcmult_inv_r (mget M r c) Hnz), E. ring. }
    destruct (Nat.eq_dec (swp c r i) c) as [Hs|Hs].
    + assert (i = r). { rewrite <- (swp_invol c r i), Hs. unfold swp. rewrite Nat.eqb_refl; reflexivity. }
      subst; exact Hr0.
    + assert (Hlt : swp c r i < n) by (apply swp_lt; lia).
      assert (E := HK (swp c r i) Hlt). rewrite Ri in E by assumption. rewrite swp_invol in E.
      rewrite Hr0 in E. rewrite <- E. ring.
Qed.

(** Columns below c are unit columns. *)
Definition unitcols (M : mat) (c : nat) : Prop :=
  forall i k, i < n -> k < c -> mget M i k = delta i k.

Lemma gj_step_unit M c M' : n <= w -> c < n -> gj_step M c = Some M' ->
  unitcols M c -> unitcols M' (S c).
Proof.
  intros Hw Hc H HU. destruct (gj_step_spec _ _ _ Hw Hc H) as (r & Hr & Hnz & _ & HM').
  intros i k Hi Hk. rewrite HM' by lia.
  destruct (Nat.eq_dec k c) as [->|Hkc].
  - destruct (Nat.eqb_spec i c) as [->|Hne].
    + rewrite delta_refl. field; exact Hnz.
    + rewrite delta_neq by exact Hne. field; exact Hnz.
  - assert (Hr0 : mget M r k = 0q) by (rewrite HU by lia; apply delta_neq; lia).
    rewrite Hr0. destruct (Nat.eqb_spec i c) as [->|Hne].
    + rewrite delta_neq by lia. field; exact Hnz.
    + assert (Hlt : swp c r i < n) by (apply swp_lt; lia).
      rewrite (HU (swp c r i) k) by lia.
      assert (E : delta (swp c r i) k = delta i k).
      { unfold swp. destruct (Nat.eqb_spec i c); [contradiction|].
        destruct (Nat.eqb_spec i r) as [->|]; [|reflexivity]. rewrite !delta_neq by lia; reflexivity. }
      rewrite E. field; exact Hnz.
Qed.

Lemma gj_loop_spec M k c M' : n <= w -> c + k = n -> wf n w M -> gj_loop M (seq c k) = Some M' -> unitcols M c ->
  wf n w M' /\ unitcols M' n /\ forall x, kern M x <-> kern M' x.
Proof.
  revert M c; induction k as [|k IH]; intros M c Hw Hck Hwf HL HU; simpl in HL.
  - assert (Hcn : c = n) by lia. rewrite Hcn in *. inversion HL; subst M'. split; [exact Hwf|]. split; [exact HU|]. intros; reflexivity.
  - destruct (gj_step M c) as [M1|] eqn:E; [|discriminate].
    destruct (gj_step_spec M c M1 Hw ltac:(lia) E) as (r & _ & _ & Hwf1 & _).
    assert (HU1 : unitcols M1 (S c)) by (eapply gj_step_unit; eauto; lia).
    destruct (IH M1 (S c) Hw ltac:(lia) Hwf1 HL HU1) as (A & B & C).
    split; [exact A|]. split; [exact B|]. intros x.
    rewrite (gj_step_kern M c M1 x Hw ltac:(lia) E). apply C.
Qed.

Lemma gj_loop_fail M k c : n <= w -> c + k = n -> gj_loop M (seq c k) = None -> unitcols M c ->
  exists z, (forall j, n <= j -> z j = 0q) /\ (exists j, j < n /\ z j <> 0q) /\ kern M z.
Proof.
  revert M c; induction k as [|k IH]; intros M c Hw Hck HL HU; simpl in HL; [discriminate|].
  destruct (gj_step M c) as [M1|] eqn:E.
  - assert (HU1 : unitcols M1 (S c)) by (eapply gj_step_unit; eauto; lia).
    destruct (IH M1 (S c) Hw ltac:(lia) HL HU1) as (z & Hz1 & Hz2 & Hz3).
    exists z. split; [exact Hz1|]. split; [exact Hz2|].
    apply (gj_step_kern M c M1 z Hw ltac:(lia) E). exact Hz3.
  - clear IH HL. unfold gj_step in E.
    destruct (find _ (seq c (n - c))) as [r|] eqn:F; [discriminate|].
    assert (HF := find_none _ _ F).
    exists (fun j => if Nat.ltb j c then (- mget M j c)%Qc else delta c j).
    split; [|split].
    + intros j Hj. destruct (Nat.ltb_spec j c); [lia|]. apply delta_neq; lia.
    + exists c. split; [lia|]. rewrite Nat.ltb_irrefl, delta_refl. discriminate.
    + intros i Hi.
      transitivity (sumn w (fun j => mget M i j * (if Nat.ltb j c then - mget M j c else 0q)
                                     + mget M i j * delta c j)%Qc).
      { apply sumn_ext; intros j Hj. destruct (Nat.ltb_spec j c); [rewrite (delta_neq c j) by lia|]; ring. }
      rewrite sumn_plus.
      assert (E2 : sumn w (fun j => mget M i j * delta c j)%Qc = mget M i c).
      { rewrite (sumn_single w _ c) by (try lia; intros; rewrite delta_neq by auto; ring).
        rewrite delta_refl; ring. }
      rewrite E2. destruct (Nat.lt_ge_cases i c) as [Hic|Hic].
      * rewrite (sumn_single w _ i) by (try lia; intros j Hj Hne; destruct (Nat.ltb_spec j c);
          try (rewrite HU by lia; rewrite delta_neq by auto); ring).
        destruct (Nat.ltb_spec i c); [|lia]. rewrite (HU i i), delta_refl by lia. ring.
      * rewrite sumn_0.
        -- assert (Hz := HF i ltac:(apply in_seq; lia)). apply negb_false_iff, Qceqb_eq in Hz.
           rewrite Hz; ring.
        -- intros j Hj. destruct (Nat.ltb_spec j c); [|ring]. rewrite HU by lia. rewrite delta_neq by lia. ring.
Qed.
End GJ.

(** numpy.linalg.solve(A, B) for a square A and a matrix B of right-hand sides;
    [None] is LinAlgError (singular matrix). *)
Definition solve (A B : mat) : option mat :=
  let n := nrows A in let m := ncols B in
  match gj_loop n (n + m) (mk n (n + m) (fun i j => if Nat.ltb j n then mget A i j else mget B i (j - n)))
          (seq 0 n) with
  | None => None
  | Some M => Some (mk n m (fun i j => mget M i (n + j)))
  end.

(** numpy.linalg.inv(A) *)
Definition minv (A : mat) : option mat := solve A (eye (nrows A)).

(** numpy.linalg.solve(A, b) for a vector b *)
Definition solve_vec (A : mat) (b : vec) : option vec :=
  match solve A (map (fun x => [x]) b) with
  | None => None
  | Some X => Some (map (fun r => hd 0q r) X)
  end.

(** Nonsingularity, as injectivity. *)
Definition nonsingular (n : nat) (A : mat) : Prop :=
  forall z : nat -> Qc, (forall i, i < n -> sumn n (fun j => mget A i j * z j)%Qc = 0q) ->
    forall j, j < n -> z j = 0q.

Lemma aug_sum n m A B (i : nat) (x : nat -> Qc) : i < n ->
  sumn (n + m) (fun j => mget (mk n (n + m) (fun i j => if Nat.ltb j n then mget A i j else mget B i (j - n))) i j * x j)%Qc
  = (sumn n (fun j => mget A i j * x j) + sumn m (fun j => mget B i j * x (n + j)%nat))%Qc.
Proof.
  intros Hi. rewrite sumn_split. f_equal.
  - apply sumn_ext; intros j Hj. rewrite mget_mk by lia. destruct (Nat.ltb_spec j n); [reflexivity|lia].
  - apply sumn_ext; intros j Hj. rewrite mget_mk by lia. destruct (Nat.ltb_spec (n + j) n); [lia|].
    replace (n + j - n) with j by lia. reflexivity.
Qed.

Lemma solve_spec n m A B X : 0 < n -> wf n n A -> wf n m B -> solve A B = Some X ->
  wf n m X /\ nonsingular n A /\
  (forall i l, i < n -> l < m -> sumn n (fun j => mget A i j * mget X j l)%Qc = mget B i l).
Proof.
  intros Hn HA HB. unfold solve. rewrite (wf_nrows _ _ _ HA), (wf_ncols _ _ _ HB Hn).
  set (M0 := mk n (n + m) _). destruct (gj_loop n (n + m) M0 (seq 0 n)) as [M|] eqn:E; [|discriminate].
  intros EX; inversion EX; subst X; clear EX.
  assert (HU0 : unitcols n M0 0) by (intros i k _ Hk; lia).
  destruct (gj_loop_spec n (n + m) M0 n 0 M ltac:(lia) ltac:(lia) (wf_mk _ _ _) E HU0) as (HwM & HU & HK).
  split; [apply wf_mk|]. split.
  - intros z Hz j Hj.
    pose (x := fun j => if Nat.ltb j n then z j else 0q).
    assert (K0 : kern n (n + m) M0 x).
    { intros i Hi. unfold M0. rewrite aug_sum by exact Hi.
      rewrite (sumn_ext n _ (fun j => mget A i j * z j)%Qc).
      - rewrite Hz by exact Hi. rewrite sumn_0; [ring|]. intros l Hl. unfold x.
        destruct (Nat.ltb_spec (n + l) n); [lia|]. ring.
      - intros l Hl. unfold x. destruct (Nat.ltb_spec l n); [reflexivity|lia]. }
    apply HK in K0. specialize (K0 j Hj). rewrite (sumn_single (n + m) _ j) in K0.
    + rewrite HU, delta_refl in K0 by lia. unfold x in K0. destruct (Nat.ltb_spec j n); [|lia].
      rewrite <- K0; ring.
    + lia.
    + intros l Hl Hne. destruct (Nat.ltb_spec l n).
      * rewrite HU by lia. rewrite delta_neq by auto. ring.
      * unfold x. destruct (Nat.ltb_spec l n); [lia|]. ring.
  - intros i l Hi Hl.
    pose (x := fun j => if Nat.ltb j n then mget M j (n + l) else (- delta l (j - n))%Qc).
    assert (K : kern n (n + m) M x).
    { intros a Ha. rewrite sumn_split.
      rewrite (sumn_single n _ a) by (try assumption; intros b Hb Hne; rewrite HU by lia;
        rewrite delta_neq by auto; ring).
      rewrite (sumn_single m _ l) by (try assumption; intros b Hb Hne; unfold x;
        destruct (Nat.ltb_spec (n + b) n); try lia; replace (n + b - n) with b by lia;
        rewrite delta_neq by auto; ring).
      rewrite HU, delta_refl by lia. unfold x. destruct (Nat.ltb_spec a n); [|lia].
      destruct (Nat.ltb_spec (n + l) n); [lia|]. replace (n + l - n) with l by lia. rewrite delta_refl. ring. }
    apply HK in K. specialize (K i Hi). unfold M0 in K. rewrite aug_sum in K by exact Hi.
    rewrite (sumn_single m _ l) in K by (try assumption; intros b Hb Hne; unfold x;
        destruct (Nat.ltb_spec (n + b) n); try lia; replace (n + b - n) with b by lia;
        rewrite delta_neq by auto; ring).
    unfold x in K at 2. destruct (Nat.ltb_spec (n + l) n); [lia|]. replace (n + l - n) with l in K by lia.
    rewrite delta_refl in K.
    rewrite (sumn_ext n _ (fun j => mget A i j * mget M j (n + l))%Qc) in K
      by (intros j Hj; unfold x; destruct (Nat.ltb_spec j n); [reflexivity|lia]).
    rewrite (sumn_ext n _ (fun j => mget A i j * mget M j (n + l))%Qc)
      by (intros j Hj; rewrite mget_mk by assumption; reflexivity).
    revert K. generalize (sumn n (fun j => mget A i j * mget M j (n + l))%Qc). intros s K.
    assert (s = mget B i l * 1 - (mget B i l * 1 - s) )%Qc by ring.
    rewrite <- (Qcplus_0_r (mget B i l)). rewrite <- K. ring.
Qed.

Lemma solve_complete n m A B : 0 < n -> wf n n A -> wf n m B -> nonsingular n A ->
  exists X, solve A B = Some X.
Proof.
  intros Hn HA HB HN. unfold solve. rewrite (wf_nrows _ _ _ HA), (wf_ncols _ _ _ HB Hn).
  set (M0 := mk n (n + m) _). destruct (gj_loop n (n + m) M0 (seq 0 n)) as [M|] eqn:E; [eexists; reflexivity|].
  exfalso. assert (HU0 : unitcols n M0 0) by (intros i k _ Hk; lia).
  destruct (gj_loop_fail n (n + m) M0 n 0 ltac:(lia) ltac:(lia) E HU0) as (z & Hz1 & (j & Hj & Hz2) & Hz3).
  apply Hz2. apply HN; [|exact Hj]. intros i Hi. specialize (Hz3 i Hi). unfold M0 in Hz3.
  rewrite aug_sum in Hz3 by exact Hi. rewrite (sumn_0 m) in Hz3.
  - rewrite <- Hz3; ring.
  - intros l Hl. rewrite Hz1 by lia. ring.
Qed.

Lemma solve_none n m A B : 0 < n -> wf n n A -> wf n m B -> solve A B = None -> ~ nonsingular n A.
Proof.
  intros Hn HA HB HE HN. destruct (solve_complete n m A B Hn HA HB HN) as (X & HX). congruence.
Qed.

Lemma nonsingular_unique n A (x y : nat -> Qc) : nonsingular n A ->
  (forall i, i < n -> sumn n (fun j => mget A i j * x j)%Qc = sumn n (fun j => mget A i j * y j)%Qc) ->
  forall j, j < n -> x j = y j.
Proof.
  intros HN H j Hj. assert (E : (x j - y j)%Qc = 0q).
  { apply (HN (fun j => x j - y j)%Qc); [|exact Hj]. intros i Hi.
    rewrite (sumn_ext n _ (fun j => mget A i j * x j - mget A i j * y j)%Qc) by (intros; ring).
    rewrite sumn_minus, H by exact Hi. ring. }
  rewrite <- (Qcplus_0_r (y j)), <- E. ring.
Qed.

Lemma minv_spec n A X : 0 < n -> wf n n A -> minv A = Some X ->
  wf n n X /\ nonsingular n A /\ mmul A X = eye n /\ mmul X A = eye n.
Proof.
  intros Hn HA H. unfold minv in H. rewrite (wf_nrows _ _ _ HA) in H.
  destruct (solve_spec n n A (eye n) X Hn HA (wf_eye n) H) as (HX & HN & HS).
  split; [exact HX|]. split; [exact HN|].
  assert (E1 : mmul A X = eye n).
  { apply (mat_ext n n); [apply (wf_mmul n n n); assumption|apply wf_eye|].
    intros i j Hi Hj. rewrite (mget_mmul n n n) by assumption. apply HS; assumption. }
  split; [exact E1|].
  apply (mat_ext n n); [apply (wf_mmul n n n); assumption|apply wf_eye|].
  intros i j Hi Hj.
  apply (nonsingular_unique n A (fun i => mget (mmul X A) i j) (fun i => mget (eye n) i j) HN); [|exact Hi].
  intros a Ha.
  transitivity (mget (mmul A (mmul X A)) a j).
  - rewrite (mget_mmul n n n) by (auto; apply (wf_mmul n n n); assumption). reflexivity.
  - rewrite <- (mmul_assoc n n n n), E1 by assumption. rewrite (mmul_eye_l n n) by assumption.
    transitivity (mget (mmul A (eye n)) a j).
    + rewrite (mmul_eye_r n n) by assumption; reflexivity.
    + rewrite (mget_mmul n n n) by (auto using wf_eye). reflexivity.
Qed.

Lemma minv_complete n A : 0 < n -> wf n n A -> nonsingular n A -> exists X, minv A = Some X.
Proof.
  intros Hn HA HN. unfold minv. rewrite (wf_nrows _ _ _ HA).
  apply (solve_complete n n); auto using wf_eye.
Qed.

Lemma wf_colmat b : wf (length b) 1 (map (fun x => [x]) b).
Proof.
  split; [apply map_length|]. intros r Hr. apply in_map_iff in Hr. destruct Hr as (x & <- & _). reflexivity.
Qed.
Lemma mget_colmat b i : i < length b -> mget (map (fun x => [x]) b) i 0 = vget b i.
Proof.
  intros Hi. unfold mget, vget. rewrite nth_indep with (d' := [0q]) by (rewrite map_length; exact Hi).
  rewrite (map_nth (fun x => [x]) b 0q i). reflexivity.
Qed.

Lemma solve_vec_spec n A b x : 0 < n -> wf n n A -> length b = n -> solve_vec A b = Some x ->
  length x = n /\ nonsingular n A /\
  forall i, i < n -> sumn n (fun j => mget A i j * vget x j)%Qc = vget b i.
Proof.
  intros Hn HA Hb. unfold solve_vec. destruct (solve A _) as [X|] eqn:E; [|discriminate].
  intros EX; inversion EX; subst x; clear EX.
  assert (HB := wf_colmat b). rewrite Hb in HB.
  destruct (solve_spec n 1 A _ X Hn HA HB E) as (HX & HN & HS).
  split; [rewrite map_length; apply HX|]. split; [exact HN|].
  intros i Hi. rewrite <- mget_colmat by lia. rewrite <- HS by lia.
  apply sumn_ext; intros j Hj. f_equal. unfold vget, mget.
  rewrite nth_indep with (d' := hd 0q []) by (rewrite map_length; destruct HX as [-> _]; exact Hj).
  rewrite map_nth. destruct (nth j X []); reflexivity.
Qed.

Lemma solve_vec_complete n A b : 0 < n -> wf n n A -> length b = n -> nonsingular n A ->
  exists x, solve_vec A b = Some x.
Proof.
  intros Hn HA Hb HN. unfold solve_vec. assert (HB := wf_colmat b). rewrite Hb in HB.
  destruct (solve_complete n 1 A _ Hn HA HB HN) as (X & ->). eexists; reflexivity.
Qed.

(** Executability check. *)
Example solve_example :
  option_map showm (minv (qm [[2#1; 1#1]; [1#1; 1#1]]%Q)) = Some [[1#1; -1#1]; [-1#1; 2#1]]%Q.
Proof. vm_compute. reflexivity. Qed.
Example solve_singular : minv (qm [[2#1; 1#1]; [4#1; 2#1]]%Q) = None.
Proof. vm_compute. reflexivity. Qed.
