(** L_Valid4: what the remaining validators accept; from_matrix on arbitrary
    arguments; link with the typed models. *)
From Verif Require Export L_Valid3.
From Coq Require Import Lia.


Lemma finite_nonneg x : isfinite x && num_le (Fin 0) x = true <-> exists q, x = Fin q /\ (0 <= q)%Qc.
Proof.
  destruct x; cbn; try (split; [intros; discriminate|intros (q & H & _); discriminate]).
  rewrite Qcleb_le. split; [intros H; exists x; auto|intros (q & H & Hq); inversion H; subst; exact Hq].
Qed.

Lemma v_matrix_iff v P : v_matrix v None None = Ok P <->
  exists n, 2 <= n /\ real_part_matrix v n n P /\ nonneg_entries n n P.
Proof.
  unfold v_matrix. split.
  - destruct (extract_numeric v) as [a|] eqn:Ha; [|discriminate]. cbn [bind].
    destruct (f_shape a) as [|n [|m [|]]] eqn:Hs; try discriminate.
    destruct (Nat.leb 2 n && Nat.eqb n m) eqn:E1; cbv iota; [|discriminate]. apply andb_true_iff in E1. destruct E1 as [E2 E1].
    apply Nat.eqb_eq in E1; subst m. apply Nat.leb_le in E2.
    destruct (all2 n n _ _) eqn:E4; cbv iota; [|discriminate]. rewrite all2_iff in E4. intros H; inversion H; subst; clear H.
    exists n. split; [exact E2|]. split.
    + apply extract_matrix; auto. intros i j Hi Hj. destruct (proj1 (finite_nonneg _) (E4 i j Hi Hj)) as (q & -> & _). reflexivity.
    + intros i j Hi Hj. unfold fmat. rewrite mget_mk by assumption. destruct (proj1 (finite_nonneg _) (E4 i j Hi Hj)) as (q & -> & Hq). exact Hq.
  - intros (n & Hn & HM & HP). destruct (matrix_extract v n n P HM) as (a & -> & Hshape & HA & HF). cbn [bind]. rewrite Hshape.
    rewrite Nat.eqb_refl, (proj2 (Nat.leb_le 2 n) Hn). cbn [andb]. cbv iota.
    assert (E4 : all2 n n (fun i j => f_at a [i; j]) (fun x => isfinite x && num_le (Fin 0) x) = true).
    { apply all2_iff. intros i j Hi Hj. apply finite_nonneg. exists (mget P i j). split; [apply HA; assumption|apply HP; assumption]. }
    rewrite E4. cbv iota. rewrite HF. reflexivity.
Qed.

Lemma from_matrix_py_iff m st c : from_matrix_py m st = Ok c <->
  exists n M l, 2 <= n /\ real_part_matrix m n n M /\ nonneg_entries n n M /\ names_argument st n l /\ c = mkchain (normalize_matrix M) l.
Proof.
  unfold from_matrix_py. split.
  - destruct (v_matrix m None None) as [P|] eqn:E; [|discriminate]. apply v_matrix_iff in E.
    destruct E as (n & Hn & HM & HP). cbn [bind]. rewrite (wf_nrows n n P (proj1 HM)).
    match goal with |- context [bind ?x _] => destruct x as [l|] eqn:El end; [|discriminate].
    apply (names_argument_iff st n l Hn) in El. intros H; inversion H; subst. exists n, P, l. auto 10.
  - intros (n & P & l & Hn & HM & HP & HL & ->).
    assert (E : v_matrix m None None = Ok P) by (apply v_matrix_iff; exists n; auto). rewrite E. cbn [bind].
    rewrite (wf_nrows n n P (proj1 HM)). apply (names_argument_iff st n l Hn) in HL. rewrite HL. reflexivity.
Qed.

(** Nested lists of finite floats. *)
Definition py_row (r : list Qc) : pyval := PList (map (fun q => PFloat (Fin q)) r).
Definition py_mat (M : mat) : pyval := PList (map py_row M).

Lemma py_row_shape r : 0 < length r -> has_shape (py_row r) [length r].
Proof.
  intros H. unfold py_row. replace (length r) with (length (map (fun q => PFloat (Fin q)) r)) by apply map_length.
  apply sh_list; [destruct r; [cbn in H; lia|discriminate]|]. intros x Hx. apply in_map_iff in Hx. destruct Hx as (q & <- & _). apply sh_scalar. exact I.
Qed.
Lemma py_row_kind r k : 0 < length r -> has_kind (py_row r) k -> k = KFloat.
Proof.
  intros H HK. unfold py_row in HK. inversion HK as [| | | | | | | | | | | |l' v k' H2 H3|l' v k' H2 H3]; subst; [reflexivity|].
  apply in_map_iff in H2. destruct H2 as (q & <- & _). inversion H3; reflexivity.
Qed.
Lemma py_row_entry r j : j < length r -> has_entry (py_row r) [j] (Fin (nth j r 0q), Fin 0).
Proof.
  intros Hj. unfold py_row. apply en_list with (PFloat (Fin (nth j r 0q))); [|constructor].
  rewrite nth_error_map. rewrite (nth_error_nth' r 0q Hj). reflexivity.
Qed.

Lemma py_mat_real n m M : 0 < n -> 0 < m -> wf n m M -> real_matrix (py_mat M) n m M.
Proof.
  intros Hn Hm HM. split; [exact HM|]. exists (fun idx => match idx with [i; j] => (Fin (mget M i j), Fin 0) | _ => czero end).
  split; [|reflexivity]. destruct HM as [HL HR]. cbn [numeric_array py_mat]. fold (py_mat M).
  assert (HM0 : M <> []) by (intros ->; cbn in HL; lia). split; [|split].
  - replace n with (length (map py_row M)) by (rewrite map_length; exact HL). apply sh_list; [destruct M; [congruence|discriminate]|].
    intros x Hx. apply in_map_iff in Hx. destruct Hx as (r & <- & Hr). rewrite <- (HR r Hr). apply py_row_shape. rewrite (HR r Hr). exact Hm.
  - assert (HK : forall k, has_kind (py_mat M) k -> k = KFloat).
    { intros k HK. inversion HK as [| | | | | | | | | | | |l' v k' H2 H3|l' v k' H2 H3]; subst; [reflexivity|].
      apply in_map_iff in H2. destruct H2 as (r & <- & Hr). apply (py_row_kind r); [rewrite (HR r Hr); exact Hm|exact H3]. }
    split; [intros k Hk; rewrite (HK k Hk); discriminate|]. exists KFloat. split; [|discriminate].
    destruct M as [|r M]; [congruence|]. apply ki_list with (py_row r); [left; reflexivity|].
    assert (Hr : length r = m) by (apply HR; left; reflexivity). destruct r as [|x r]; [cbn in Hr; lia|].
    apply ki_list with (PFloat (Fin x)); [left; reflexivity|constructor].
  - intros idx HI. inversion HI as [|i n' idx' s' Hi Hi' E1 E2]; subst. inversion Hi' as [|j m' idx'' s'' Hj Hj' E3 E4]; subst. inversion Hj'; subst.
    apply en_list with (py_row (nth i M [])); [rewrite nth_error_map, (nth_error_nth' M [] Hi); reflexivity|].
    unfold mget. apply py_row_entry. rewrite (HR (nth i M [])); [exact Hj|]. apply nth_In. exact Hi.
Qed.

Lemma real_real_part v n m P : real_matrix v n m P -> real_part_matrix v n m P.
Proof. intros (HP & E & HE & HA). split; [exact HP|]. exists E. split; [exact HE|]. intros i j Hi Hj. rewrite (HA i j Hi Hj). reflexivity. Qed.

(** Two arrays with the same real parts are the same matrix. *)
Lemma real_part_unique v n m P n' m' P' : real_part_matrix v n m P -> real_part_matrix v n' m' P' -> n = n' /\ m = m' /\ P = P'.
Proof.
  intros H1 H2. destruct (matrix_extract v n m P H1) as (a & Ha & Hs & HA & HF). destruct (matrix_extract v n' m' P' H2) as (a' & Ha' & Hs' & HA' & HF').
  rewrite Ha in Ha'. inversion Ha'; subst a'. rewrite Hs in Hs'. inversion Hs'; subst. auto.
Qed.

(** The typed model of from_matrix agrees with the one on arbitrary values. *)
Definition py_states (st : option (list string)) : pyval := match st with None => PNone | Some l => PList (map PStr l) end.

Lemma py_states_argument st n l : 2 <= n -> (gen_states st n (create_labels n "") = Ok l <-> names_argument (py_states st) n l).
Proof.
  intros Hn. unfold names_argument. destruct st as [l'|]; cbn [gen_states py_states].
  - rewrite validate_labels_input_ok. split.
    + intros (-> & _ & HN). right; split; [reflexivity|exact HN].
    + intros [[H _]|[H HN]]; [discriminate|]. injection H as H.
      assert (l' = l) by (rewrite <- (map_as_str l'), <- (map_as_str l), H; reflexivity). subst. auto.
  - rewrite create_labels_dec. split; [intros H; inversion H; subst; left; auto|intros [[_ ->]|[H _]]; [reflexivity|discriminate]].
Qed.

Lemma from_matrix_typed M st c : wf (nrows M) (nrows M) M -> 2 <= nrows M ->
  (from_matrix M st = Ok c <-> from_matrix_py (py_mat M) (py_states st) = Ok c).
Proof.
  intros HM Hn. rewrite from_matrix_py_iff. unfold from_matrix.
  assert (HR : real_part_matrix (py_mat M) (nrows M) (nrows M) M) by (apply real_real_part, py_mat_real; try lia; exact HM).
  split.
  - destruct (is2d (nrows M) (nrows M) M && Nat.leb 2 (nrows M)) eqn:E1; cbv iota; [|discriminate].
    destruct (mforall (Qcleb 0) M) eqn:E2; cbv iota; [|discriminate].
    destruct (gen_states st (nrows M) (create_labels (nrows M) "")) as [l|] eqn:E3; [|discriminate]. cbn [bind].
    intros H; inversion H; subst; clear H. exists (nrows M), M, l. split; [exact Hn|]. split; [exact HR|]. split.
    + intros i j Hi Hj. unfold mforall in E2. rewrite forallb_forall in E2. apply Qcleb_le.
      assert (HI : In (nth i M []) M) by (apply nth_In; exact Hi). specialize (E2 _ HI). rewrite forallb_forall in E2. apply E2. apply nth_In.
      rewrite (proj2 HM _ HI). exact Hj.
    + split; [|reflexivity]. apply (py_states_argument st _ l Hn). exact E3.
  - intros (n & M' & l & Hn' & HM' & HP & HL & ->). destruct (real_part_unique _ _ _ _ _ _ _ HR HM') as (<- & _ & <-).
    assert (E1 : is2d (nrows M) (nrows M) M = true) by (apply wfb_wf; exact HM). rewrite E1, (proj2 (Nat.leb_le _ _) Hn). cbn [andb]. cbv iota.
    assert (E2 : mforall (Qcleb 0) M = true).
    { unfold mforall. apply forallb_forall. intros r Hr. apply forallb_forall. intros x Hx. apply Qcleb_le.
      destruct (In_nth _ _ [] Hr) as (i & Hi & <-). destruct (In_nth _ _ 0q Hx) as (j & Hj & <-). apply (HP i j Hi).
      rewrite (proj2 HM _ (nth_In _ _ Hi)) in Hj. exact Hj. }
    rewrite E2. cbv iota. apply (py_states_argument st _ l Hn) in HL. rewrite HL. reflexivity.
Qed.

(** ** Hyperparameters, masks, rewards *)
Lemma is_int_iff x : is_int x = true <-> integral x.
Proof.
  unfold is_int, integral. rewrite Pos.eqb_eq. split.
  - intros H. exists (Qnum (this x)). apply Qc_is_canon. destruct x as [[a b] Hx]. cbn in *. subst b. unfold inject_Z. symmetry. apply Qred_correct.
  - intros (z & ->). change (Qden (Qred (inject_Z z)) = 1%positive). rewrite (proj2 (Qred_iff (inject_Z z))); [reflexivity|apply Z.gcd_1_r].
Qed.

Lemma v_hyperparameter_iff v size P : v_hyperparameter v size = Ok P <->
  real_part_matrix v size size P /\ forall i j, i < size -> j < size -> integral (mget P i j) /\ (1 <= mget P i j)%Qc.
Proof.
  assert (HC : forall x, isfinite x && is_int (fin x) && num_le (Fin 1) x = true <-> exists q, x = Fin q /\ integral q /\ (1 <= q)%Qc).
  { intros x. destruct x; cbn [isfinite fin num_le andb]; try (split; [intros; discriminate|intros (q & H & _); discriminate]).
    rewrite andb_true_iff, Qcleb_le, is_int_iff. split; [intros H; exists x; tauto|intros (q & H & Hq); inversion H; subst; exact Hq]. }
  unfold v_hyperparameter. split.
  - destruct (extract_numeric v) as [a|] eqn:Ha; [|discriminate]. cbn [bind].
    destruct (f_shape a) as [|n [|m [|]]] eqn:Hs; try discriminate.
    destruct (Nat.eqb n size && Nat.eqb m size) eqn:E1; cbv iota; [|discriminate]. apply andb_true_iff in E1. destruct E1 as [E2 E1].
    apply Nat.eqb_eq in E1, E2; subst m n.
    destruct (all2 size size _ _) eqn:E4; cbv iota; [|discriminate]. rewrite all2_iff in E4. intros H; inversion H; subst; clear H. split.
    + apply extract_matrix; auto. intros i j Hi Hj. destruct (proj1 (HC _) (E4 i j Hi Hj)) as (q & -> & _). reflexivity.
    + intros i j Hi Hj. unfold fmat. rewrite mget_mk by assumption. destruct (proj1 (HC _) (E4 i j Hi Hj)) as (q & -> & Hq). exact Hq.
  - intros (HM & HP). destruct (matrix_extract v size size P HM) as (a & -> & Hshape & HA & HF). cbn [bind]. rewrite Hshape.
    rewrite !Nat.eqb_refl. cbn [andb]. cbv iota.
    assert (E4 : all2 size size (fun i j => f_at a [i; j]) (fun x => isfinite x && is_int (fin x) && num_le (Fin 1) x) = true).
    { apply all2_iff. intros i j Hi Hj. apply HC. exists (mget P i j). split; [apply HA; assumption|apply HP; assumption]. }
    rewrite E4. cbv iota. rewrite HF. reflexivity.
Qed.

Lemma v_rewards_iff v size w : 0 < size -> (v_rewards v size = Ok w <-> real_part_vector v size w).
Proof.
  intros Hpos. unfold v_rewards. split.
  - destruct (extract_numeric v) as [a|] eqn:Ha; [|discriminate]. cbn [bind].
    destruct (as_vector a) as [[n f]|] eqn:Hv; [|discriminate].
    destruct (negb _) eqn:E1; cbv iota; [|discriminate].
    destruct (Nat.eqb n size) eqn:E2; cbv iota; [|discriminate]. apply Nat.eqb_eq in E2. subst n.
    destruct (all1 size f isfinite) eqn:E3; cbv iota; [|discriminate]. rewrite all1_iff in E3. intros H; inversion H; subst.
    apply extract_vector with a; auto.
  - intros HR. destruct (vector_extract v size w HR) as (a & f & -> & Hv & Hf & Hw). cbn [bind]. rewrite Hv.
    assert (E1 : negb (match f_shape a with [0] => true | _ => false end) = true).
    { destruct (f_shape a) as [|[|] [|]] eqn:Es; try reflexivity. pose proof (as_vector_shape0 a size f Hv Es). lia. }
    rewrite E1, Nat.eqb_refl. cbv iota.
    assert (E3 : all1 size f isfinite = true) by (apply all1_iff; intros i Hi; rewrite (Hf i Hi); reflexivity).
    rewrite E3. cbv iota. rewrite Hw. reflexivity.
Qed.

Lemma nansum_eq m g : (forall j, j < m -> g j = NaN \/ exists q, g j = Fin q) ->
  lsum (flat_map (fun x => match x with Fin q => [q] | _ => [] end) (tab m g)) = sumn m (fun j => fin (g j)).
Proof.
  intros H. induction m as [|m IH]; [reflexivity|]. rewrite tab_S, flat_map_app, lsum_app. cbn [sumn].
  rewrite IH by (intros; apply H; lia). f_equal. cbn [flat_map]. destruct (H m) as [->|(q & ->)]; [lia| |]; cbn [app lsum fold_right fin]; [reflexivity|].
  unfold lsum; cbn. ring.
Qed.

Lemma v_mask_ok v n m M : v_mask v n m = Ok M -> mask_spec n m M.
Proof.
  unfold v_mask. destruct (extract_numeric v) as [a|] eqn:Ha; [|discriminate]. cbn [bind].
  destruct (f_shape a) as [|n' [|m' [|]]] eqn:Hs; try discriminate.
  destruct (Nat.eqb n' n && Nat.eqb m' m) eqn:E1; cbv iota; [|discriminate]. apply andb_true_iff in E1. destruct E1 as [E2 E1].
  apply Nat.eqb_eq in E1, E2; subst m' n'.
  destruct (all2 n m _ _) eqn:E4; cbv iota; [|discriminate]. rewrite all2_iff in E4.
  destruct (forallb _ _) eqn:E5; cbv iota; [|discriminate]. intros H; inversion H; subst; clear H.
  assert (HC : forall i j, i < n -> j < m -> f_at a [i; j] = NaN \/ exists q, f_at a [i; j] = Fin q /\ (0 <= q <= 1)%Qc).
  { intros i j Hi Hj. specialize (E4 i j Hi Hj). apply orb_true_iff in E4. destruct E4 as [E4|E4]; [left; destruct (f_at a [i; j]); try discriminate; reflexivity|].
    right. apply prob01_iff. exact E4. }
  split; [apply tab_length|]. split; [intros r Hr; apply in_tab in Hr; destruct Hr as (i & _ & ->); apply tab_length|]. split.
  - intros r x Hr Hx. apply in_tab in Hr. destruct Hr as (i & Hi & ->). apply in_tab in Hx. destruct Hx as (j & Hj & ->). apply HC; assumption.
  - intros r Hr. apply in_tab in Hr. destruct Hr as (i & Hi & ->). rewrite nansum_eq.
    + rewrite forallb_forall in E5. apply Qcleb_le. apply E5. apply in_seq. lia.
    + intros j Hj. destruct (HC i j Hi Hj) as [H|(q & H & _)]; [left; exact H|right; exists q; exact H].
Qed.

Lemma v_mask_iff v n m M : v_mask v n m = Ok M <-> num_matrix v n m M /\ mask_spec n m M.
Proof.
  split.
  - intros H. split; [|eapply v_mask_ok; exact H]. revert H. unfold v_mask. destruct (extract_numeric v) as [a|] eqn:Ha; [|discriminate]. cbn [bind].
    destruct (f_shape a) as [|n' [|m' [|]]] eqn:Hs; try discriminate.
    destruct (Nat.eqb n' n && Nat.eqb m' m) eqn:E1; cbv iota; [|discriminate]. apply andb_true_iff in E1. destruct E1 as [E2 E1].
    apply Nat.eqb_eq in E1, E2; subst m' n'. destruct (all2 n m _ _); cbv iota; [|discriminate]. destruct (forallb _ _); cbv iota; [|discriminate].
    intros H; inversion H; subst; clear H. destruct (extract_ok v a Ha) as (E & HE & HA). exists E. rewrite Hs in HE. split; [exact HE|].
    intros i j Hi Hj. rewrite !tab_nth by assumption. symmetry. apply HA.
  - intros ((E & HE & HA) & HL & HR & HX & HS). destruct (extract_complete v _ E HE) as (a & Ha & Hs & Hf). unfold v_mask. rewrite Ha. cbn [bind]. rewrite Hs, !Nat.eqb_refl. cbn [andb]. cbv iota.
    assert (HF : forall i j, i < n -> j < m -> f_at a [i; j] = nth j (nth i M []) NaN).
    { intros i j Hi Hj. rewrite Hf by (apply idx2; assumption). apply HA; assumption. }
    assert (HM : tab n (fun i => tab m (fun j => f_at a [i; j])) = M).
    { apply nth_ext with (d := []) (d' := []); [rewrite tab_length; auto|]. intros i Hi. rewrite tab_length in Hi. rewrite tab_nth by exact Hi.
      assert (Hri : length (nth i M []) = m) by (apply HR, nth_In; rewrite HL; exact Hi).
      apply nth_ext with (d := NaN) (d' := NaN); [rewrite tab_length; auto|]. intros j Hj. rewrite tab_length in Hj. rewrite tab_nth by exact Hj. apply HF; assumption. }
    assert (HC : forall i j, i < n -> j < m -> f_at a [i; j] = NaN \/ exists q, f_at a [i; j] = Fin q /\ (0 <= q <= 1)%Qc).
    { intros i j Hi Hj. rewrite HF by assumption. assert (HI : In (nth i M []) M) by (apply nth_In; rewrite HL; exact Hi).
      apply (HX _ _ HI). apply nth_In. rewrite (HR _ HI). exact Hj. }
    assert (E1 : all2 n m (fun i j => f_at a [i; j]) (fun x => isnan x || prob01 x) = true).
    { apply all2_iff. intros i j Hi Hj. apply orb_true_iff. destruct (HC i j Hi Hj) as [->|H]; [left; reflexivity|right; apply prob01_iff; exact H]. }
    rewrite E1. cbv iota.
    assert (E2 : forallb (fun i => Qcleb (sumn m (fun j => fin (f_at a [i; j]))) 1) (seq 0 n) = true).
    { apply forallb_forall. intros i Hi. apply in_seq in Hi. apply Qcleb_le. rewrite <- nansum_eq.
      - rewrite <- (tab_nth n (fun i => tab m (fun j => f_at a [i; j])) [] i) by lia. rewrite HM. apply HS, nth_In. lia.
      - intros j Hj. destruct (HC i j) as [H|(q & H & _)]; [lia|exact Hj|left; exact H|right; exists q; exact H]. }
    rewrite E2. cbv iota. rewrite HM. reflexivity.
Qed.

(** ** Intervals and time points *)
Lemma number_value_iff v x : is_number v = true /\ as_float v = x <-> number_value v x.
Proof.
  unfold number_value. split.
  - intros [H <-]. destruct v; try discriminate; cbn; [right; exists z; auto|left; reflexivity].
  - intros [->|(z & -> & ->)]; split; reflexivity.
Qed.

Lemma v_interval_iff v a b : v_interval v = Ok (a, b) <->
  exists x y, v = PTuple [x; y] /\ number_value x (Fin a) /\ number_value y (Fin b) /\ (0 <= a)%Qc /\ (a < b)%Qc.
Proof.
  unfold v_interval. split.
  - destruct v as [| | | | | | |[|x [|y [|]]]| | |]; try discriminate.
    destruct (is_number x && is_number y) eqn:E1; cbv iota zeta; [|discriminate]. apply andb_true_iff in E1. destruct E1 as [Ex Ey].
    destruct (isfinite (as_float x) && num_le (Fin 0) (as_float x) && (isfinite (as_float y) && num_le (Fin 0) (as_float y))) eqn:E2; cbv iota; [|discriminate].
    apply andb_true_iff in E2. destruct E2 as [E2 E3]. apply finite_nonneg in E2, E3. destruct E2 as (p & Hp & Hp'), E3 as (q & Hq & Hq').
    rewrite Hp, Hq. cbn [num_le fin]. destruct (Qcleb q p) eqn:E4; cbn [negb]; cbv iota; [discriminate|]. intros H; inversion H; subst.
    exists x, y. split; [reflexivity|]. split; [apply number_value_iff; auto|]. split; [apply number_value_iff; auto|]. split; [exact Hp'|].
    apply Qcnot_le_lt. rewrite <- Qcleb_le, E4. discriminate.
  - intros (x & y & -> & Hx & Hy & Ha & Hab). apply number_value_iff in Hx, Hy. destruct Hx as [-> ->], Hy as [-> ->]. cbn [andb isfinite num_le fin]. cbv iota zeta.
    assert (Hb : (0 <= b)%Qc) by (apply Qclt_le_weak; eapply Qcle_lt_trans; eassumption).
    rewrite (proj2 (Qcleb_le _ _) Ha), (proj2 (Qcleb_le _ _) Hb). cbn [andb]. cbv iota.
    assert (E : Qcleb b a = false) by (apply not_true_iff_false; rewrite Qcleb_le; apply Qclt_not_le; exact Hab). rewrite E. reflexivity.
Qed.

Lemma insert_Z_perm x l : Permutation (x :: l) (insert_Z x l).
Proof.
  induction l as [|y l IH]; [reflexivity|]. cbn [insert_Z]. destruct (Z.leb x y); [reflexivity|].
  rewrite <- IH. apply perm_swap.
Qed.
Lemma sort_Z_perm l : Permutation l (sort_Z l).
Proof. induction l as [|x l IH]; [reflexivity|]. cbn [sort_Z fold_right]. rewrite <- insert_Z_perm. constructor. exact IH. Qed.
Lemma insert_Z_sorted x l : StronglySorted Z.le l -> StronglySorted Z.le (insert_Z x l).
Proof.
  induction 1 as [|y l H IH HF]; cbn [insert_Z]; [repeat constructor|].
  destruct (Z.leb x y) eqn:E.
  - apply Z.leb_le in E. constructor; [constructor; assumption|]. constructor; [exact E|]. eapply Forall_impl; [|exact HF]. intros; cbn in *; lia.
  - apply Z.leb_gt in E. constructor; [exact IH|]. rewrite Forall_forall in *. intros z Hz.
    apply (Permutation_in _ (Permutation_sym (insert_Z_perm x l))) in Hz. destruct Hz as [<-|Hz]; [lia|apply HF; exact Hz].
Qed.
Lemma sort_Z_sorted l : StronglySorted Z.le (sort_Z l).
Proof. induction l as [|x l IH]; [constructor|]. apply insert_Z_sorted. exact IH. Qed.
Lemma sort_Z_strict l : NoDup l -> StronglySorted Z.lt (sort_Z l).
Proof.
  intros HN. assert (HN' : NoDup (sort_Z l)) by (eapply Permutation_NoDup; [apply sort_Z_perm|exact HN]).
  pose proof (sort_Z_sorted l) as HS. revert HN' HS. generalize (sort_Z l). clear. intros l. induction l as [|x l IH]; intros HN' HS; [constructor|].
  inversion HN' as [|? ? H1 H2]; subst. inversion HS as [|? ? H3 H4]; subst. constructor; [apply IH; assumption|].
  rewrite Forall_forall in *. intros y Hy. specialize (H4 y Hy). assert (x <> y) by (intros ->; contradiction). lia.
Qed.
Lemma strict_sorted_Z_unique (l1 l2 : list Z) : StronglySorted Z.lt l1 -> StronglySorted Z.lt l2 -> (forall k, In k l1 <-> In k l2) -> l1 = l2.
Proof.
  revert l2; induction l1 as [|x l1 IH]; intros [|y l2] H1 H2 HI; try reflexivity.
  - exfalso. apply (proj2 (HI y)). left; reflexivity.
  - exfalso. apply (proj1 (HI x)). left; reflexivity.
  - inversion H1 as [|? ? H3 H4]; subst. inversion H2 as [|? ? H5 H6]; subst. rewrite Forall_forall in *.
    assert (x = y).
    { destruct (proj1 (HI x) (or_introl eq_refl)) as [E|E]; [congruence|]. destruct (proj2 (HI y) (or_introl eq_refl)) as [E'|E']; [congruence|].
      specialize (H4 _ E'). specialize (H6 _ E). lia. }
    subst y. f_equal. apply IH; auto. intros k. split; intros Hk.
    + destruct (proj1 (HI k) (or_intror Hk)) as [<-|E]; [specialize (H4 _ Hk); lia|exact E].
    + destruct (proj2 (HI k) (or_intror Hk)) as [<-|E]; [specialize (H6 _ Hk); lia|exact E].
Qed.

Lemma v_time_points_iff v r : v_time_points v = Ok r <->
  match r with
  | TPoint k => v = PInt k /\ (0 <= k)%Z
  | TPoints ts => exists zs, v = PList (map PInt zs) /\ zs <> [] /\ NoDup zs /\ (forall z, In z zs -> (0 <= z)%Z)
                   /\ StronglySorted Z.lt ts /\ forall z, In z ts <-> In z zs
  end.
Proof.
  unfold v_time_points. split.
  - destruct v; try discriminate.
    + destruct (Z.leb 0 z) eqn:E; cbv iota; [|discriminate]. apply Z.leb_le in E. intros H; inversion H; subst. auto.
    + destruct (forallb is_integer l) eqn:E1; cbv iota zeta; [|discriminate].
      destruct (forallb (Z.leb 0) (map as_int l)) eqn:E2; cbv iota; [|discriminate].
      destruct (Nat.leb 1 (length (map as_int l))) eqn:E3; cbv iota; [|discriminate]. apply Nat.leb_le in E3.
      destruct (nodupb Z.eqb (map as_int l)) eqn:E4; cbv iota; [|discriminate]. apply (nodupb_NoDup Z.eqb Z.eqb_eq) in E4.
      intros H; inversion H; subst. exists (map as_int l). split; [|split; [|split; [exact E4|split; [|split; [apply sort_Z_strict; exact E4|]]]]].
      * f_equal. rewrite map_map. rewrite <- (map_id l) at 1. apply map_ext_in. intros x Hx. rewrite forallb_forall in E1. specialize (E1 x Hx). destruct x; try discriminate. reflexivity.
      * intros E. rewrite E in E3. cbn in E3. lia.
      * intros z Hz. rewrite forallb_forall in E2. apply Z.leb_le. apply E2. exact Hz.
      * intros z. split; apply Permutation_in; [symmetry|]; apply sort_Z_perm.
  - destruct r as [k|ts].
    + intros [-> H]. apply Z.leb_le in H. rewrite H. reflexivity.
    + intros (zs & -> & H0 & HN & HP & HS & HI).
      assert (E1 : forallb is_integer (map PInt zs) = true) by (apply forallb_forall; intros x Hx; apply in_map_iff in Hx; destruct Hx as (z & <- & _); reflexivity).
      rewrite E1. cbv iota zeta.
      assert (Em : map as_int (map PInt zs) = zs) by (rewrite map_map; rewrite <- (map_id zs) at 2; apply map_ext; reflexivity). rewrite Em.
      assert (E2 : forallb (Z.leb 0) zs = true) by (apply forallb_forall; intros z Hz; apply Z.leb_le; apply HP; exact Hz). rewrite E2. cbv iota.
      assert (E3 : Nat.leb 1 (length zs) = true) by (apply Nat.leb_le; destruct zs; [congruence|cbn; lia]). rewrite E3. cbv iota.
      rewrite (proj2 (nodupb_NoDup Z.eqb Z.eqb_eq zs) HN). cbv iota. do 2 f_equal. apply strict_sorted_Z_unique; [apply sort_Z_strict; exact HN|exact HS|].
      intros k. rewrite HI. split; apply Permutation_in; [symmetry|]; apply sort_Z_perm.
Qed.

(** ** Boundary conditions *)
Lemma v_boundary_number v x : v_boundary_condition v = Ok (BNumber x) <->
  number_value v x /\ (x = NaN \/ exists q, x = Fin q /\ (0 <= q <= 1)%Qc).
Proof.
  assert (HC : forall x, negb (num_lt x (Fin 0) || num_lt (Fin 1) x) = true <-> x = NaN \/ exists q, x = Fin q /\ (0 <= q <= 1)%Qc).
  { intros [y| | |]; cbn.
    - rewrite negb_true_iff, orb_false_iff, <- !not_true_iff_false, !Qcltb_lt. split.
      + intros [H1 H2]. right. exists y. split; [reflexivity|]. split; apply Qcnot_lt_le; assumption.
      + intros [H|(q & H & H1 & H2)]; [discriminate|]. inversion H; subst. split; apply Qcle_not_lt; assumption.
    - split; [discriminate|intros [H|(q & H & _)]; discriminate].
    - split; [discriminate|intros [H|(q & H & _)]; discriminate].
    - split; [auto|reflexivity]. }
  unfold v_boundary_condition. split.
  - destruct (is_number v) eqn:E.
    + cbv zeta. destruct (negb _) eqn:E2; cbv iota; [|discriminate]. intros H; inversion H; subst. split; [apply number_value_iff; auto|apply HC; exact E2].
    + destruct (is_string v); [|discriminate]. destruct (String.eqb _ _); [discriminate|]. destruct (String.eqb _ _); discriminate.
  - intros [Hv HX]. apply number_value_iff in Hv. destruct Hv as [-> <-]. cbv zeta. rewrite (proj2 (HC _) HX). reflexivity.
Qed.

(** ** Sequences: result and effect on the caller's list *)
Lemma v_sequences_flat_unchanged v labels flex : (forall l, v = PList l -> forallb is_list l = false) -> snd (v_sequences v labels flex) = v.
Proof.
  intros H. unfold v_sequences. destruct v; try reflexivity. destruct (negb _); [reflexivity|]. rewrite (H l eq_refl).
  destruct (flex && _); reflexivity.
Qed.

Lemma PIndices_ints ks : PIndices ks = PList (map (fun k => PInt (Z.of_nat k)) ks).
Proof. reflexivity. Qed.

(** A list of lists of integers is left as it was. *)
Lemma v_sequences_int_unchanged ls labels flex : labels_ok labels -> (forall v, In v ls -> exists ks : list Z, v = PList (map PInt ks)) ->
  snd (v_sequences (PList ls) labels flex) = PList ls.
Proof.
  intros HL H. unfold v_sequences. destruct (negb _); [reflexivity|].
  assert (E : forallb is_list ls = true) by (apply forallb_forall; intros x Hx; destruct (H x Hx) as (ks & ->); reflexivity). rewrite E.
  assert (HA : snd (seqs_loop ls labels) = ls).
  { clear E. induction ls as [|v ls IH]; [reflexivity|]. cbn [seqs_loop].
    destruct (v_sequence v labels) as [ks|] eqn:Ev; [|reflexivity].
    assert (IH' : snd (seqs_loop ls labels) = ls) by (apply IH; intros; apply H; right; assumption).
    destruct (seqs_loop ls labels) as [r after]. cbn [snd] in *. subst after. f_equal.
    apply v_sequence_iff in Ev; [|exact HL]. destruct Ev as (l & -> & Hl & HD). destruct HD as [_ [HD|HD]]; [rewrite HD; reflexivity|].
    exfalso. destruct (H (PList l) (or_introl eq_refl)) as (zs & Hz). injection Hz as Hz. rewrite Hz in HD.
    destruct zs as [|z zs]; [subst l; cbn in Hl; lia|]. destruct ks; discriminate. }
  destruct (seqs_loop ls labels) as [r after]. cbn [snd] in *. congruence.
Qed.

Lemma v_sequences_ok v labels flex r : labels_ok labels -> fst (v_sequences v labels flex) = Ok r ->
  (exists l ks, flex = true /\ v = PList l /\ designates_list labels l ks /\ 2 <= length l /\ r = [ks])
  \/ (exists ls, v = PList ls /\ 2 <= length ls /\ Forall2 (fun x ks => exists l, x = PList l /\ 2 <= length l /\ designates_list labels l ks) ls r).
Proof.
  intros HL. unfold v_sequences. destruct v; try discriminate. destruct (Nat.leb 2 (length l)) eqn:E0; cbn [negb]; [|discriminate]. apply Nat.leb_le in E0.
  destruct (forallb is_list l) eqn:E.
  - destruct (seqs_loop l labels) as [r' after] eqn:Es. cbn [fst]. intros ->. right. exists l. split; [reflexivity|]. split; [exact E0|]. clear E E0.
    revert r after Es. induction l as [|v l IH]; intros r after Es; cbn [seqs_loop] in Es; [inversion Es; subst; constructor|].
    destruct (v_sequence v labels) as [ks|] eqn:Ev; [|discriminate]. destruct (seqs_loop l labels) as [[r0|] after0]; cbn [bind] in Es; [|discriminate].
    inversion Es; subst. constructor; [apply v_sequence_iff; assumption|eapply IH; reflexivity].
  - destruct flex; [|discriminate]. cbn [andb]. destruct (forallb is_integer l || forallb is_string l); [|discriminate].
    cbn [fst seqs_loop]. destruct (v_sequence (PList l) labels) as [ks|] eqn:Ev; [|discriminate]. cbn. intros H; inversion H; subst.
    apply v_sequence_iff in Ev; [|exact HL]. destruct Ev as (l' & Hl' & H2 & HD). inversion Hl'; subst. left. exists l', ks. auto.
Qed.
