(** L_Valid2: what each validator accepts. *)
From Verif Require Export L_Valid1 L_Gen4.
From Coq Require Import Lia.

Lemma isfinite_fin x : isfinite x = true <-> x = Fin (fin x).
Proof. destruct x; cbn; split; intros; try reflexivity; discriminate. Qed.

Lemma prob01_iff x : prob01 x = true <-> exists q, x = Fin q /\ (0 <= q <= 1)%Qc.
Proof.
  unfold prob01. destruct x; cbn; try (split; [intros; discriminate|intros (q & H & _); discriminate]).
  rewrite andb_true_iff, !Qcleb_le. split; [intros H; exists x; auto|intros (q & H & Hq); inversion H; subst; exact Hq].
Qed.

Lemma all2_iff n m f p : all2 n m f p = true <-> forall i j, i < n -> j < m -> p (f i j) = true.
Proof.
  unfold all2. rewrite forallb_forall. split.
  - intros H i j Hi Hj. assert (HI : In i (seq 0 n)) by (apply in_seq; lia). specialize (H i HI). rewrite forallb_forall in H. apply H. apply in_seq; lia.
  - intros H i Hi. apply in_seq in Hi. apply forallb_forall. intros j Hj. apply in_seq in Hj. apply H; lia.
Qed.
Lemma all1_iff n f p : all1 n f p = true <-> forall i, i < n -> p (f i) = true.
Proof.
  unfold all1. rewrite forallb_forall. split.
  - intros H i Hi. apply H. apply in_seq; lia.
  - intros H i Hi. apply in_seq in Hi. apply H; lia.
Qed.

Lemma isclose_one x : isclose x 1 = true <-> nearly_one x.
Proof.
  rewrite isclose_1, Qcabs_le. unfold nearly_one.
  assert (E : (atol + rtol)%Qc = tolerance) by (apply Qc_is_canon; reflexivity). rewrite E. reflexivity.
Qed.

Lemma idx2 n m i j : i < n -> j < m -> Forall2 lt [i; j] [n; m].
Proof. intros; repeat constructor; assumption. Qed.

(** From an accepted array to the specification, and back. *)
Lemma extract_matrix v a n m : extract_numeric v = Ok a -> f_shape a = [n; m] ->
  (forall i j, i < n -> j < m -> isfinite (f_at a [i; j]) = true) -> real_part_matrix v n m (fmat n m a).
Proof.
  intros Ha Hs Hf. destruct (extract_ok v a Ha) as (E & HE & HA). rewrite Hs in HE. split; [apply wf_mk|].
  exists E. split; [exact HE|]. intros i j Hi Hj. rewrite <- HA. unfold fmat. rewrite mget_mk by assumption.
  apply isfinite_fin. apply Hf; assumption.
Qed.

Lemma matrix_extract v n m P : real_part_matrix v n m P ->
  exists a, extract_numeric v = Ok a /\ f_shape a = [n; m] /\ (forall i j, i < n -> j < m -> f_at a [i; j] = Fin (mget P i j)) /\ fmat n m a = P.
Proof.
  intros (HP & E & HE & HA). destruct (extract_complete v _ E HE) as (a & Ha & Hs & Hat). exists a.
  assert (HC : forall i j, i < n -> j < m -> f_at a [i; j] = Fin (mget P i j)).
  { intros i j Hi Hj. rewrite (Hat [i; j] (idx2 n m i j Hi Hj)). apply HA; assumption. }
  repeat split; auto. apply mat_ext with n m; [apply wf_mk|exact HP|]. intros i j Hi Hj.
  unfold fmat. rewrite mget_mk by assumption. rewrite HC by assumption. reflexivity.
Qed.

Lemma fmat_prob n m a : (forall i j, i < n -> j < m -> prob01 (f_at a [i; j]) = true) -> probabilities n m (fmat n m a).
Proof.
  intros H i j Hi Hj. unfold fmat. rewrite mget_mk by assumption. destruct (proj1 (prob01_iff _) (H i j Hi Hj)) as (q & Hq & Hq'). rewrite Hq. exact Hq'.
Qed.

Lemma prob01_finite x : prob01 x = true -> isfinite x = true.
Proof. unfold prob01. rewrite !andb_true_iff. tauto. Qed.

Lemma rows_close n m P : wf n m P -> 0 < n -> (forallb (fun i => isclose (rowsum P i) 1) (seq 0 n) = true <-> nearly_stochastic n m P).
Proof.
  intros HP Hn. rewrite forallb_forall. split.
  - intros H i Hi. apply isclose_one. rewrite <- (rowsum_eq n m P i HP Hn). apply H. apply in_seq; lia.
  - intros H i Hi. apply in_seq in Hi. apply isclose_one. rewrite (rowsum_eq n m P i HP Hn). apply H. lia.
Qed.

Lemma v_transition_matrix_iff v size P : v_transition_matrix v size = Ok P <->
  exists n, 2 <= n /\ match size with None => True | Some s => n = s end /\ real_part_matrix v n n P /\ probabilities n n P /\ nearly_stochastic n n P.
Proof.
  unfold v_transition_matrix. split.
  - destruct (extract_numeric v) as [a|] eqn:Ha; [|discriminate]. cbn [bind].
    destruct (f_shape a) as [|n [|m [|]]] eqn:Hs; try discriminate.
    destruct (Nat.eqb n m && Nat.leb 2 n) eqn:E1; cbv iota; [|discriminate]. apply andb_true_iff in E1. destruct E1 as [E1 E2].
    apply Nat.eqb_eq in E1; subst m. apply Nat.leb_le in E2.
    destruct (match size with None => true | Some s => Nat.eqb n s end) eqn:E3; cbv iota; [|discriminate].
    destruct (all2 n n _ prob01) eqn:E4; cbv iota; [|discriminate]. rewrite all2_iff in E4.
    cbv zeta. destruct (forallb _ _) eqn:E5; cbv iota; [|discriminate]. intros H; inversion H; subst; clear H.
    exists n. split; [exact E2|]. split; [destruct size; [apply Nat.eqb_eq; exact E3|exact I]|].
    split; [apply extract_matrix; auto; intros; apply prob01_finite; apply E4; assumption|].
    split; [apply fmat_prob; exact E4|]. apply rows_close; [apply wf_mk|lia|exact E5].
  - intros (n & Hn & Hsz & HM & HP & HS). destruct (matrix_extract v n n P HM) as (a & -> & Hshape & HA & HF). cbn [bind]. rewrite Hshape.
    rewrite Nat.eqb_refl, (proj2 (Nat.leb_le 2 n) Hn). cbn [andb]. cbv iota.
    assert (E3 : match size with None => true | Some s => Nat.eqb n s end = true) by (destruct size; [apply Nat.eqb_eq; exact Hsz|reflexivity]).
    rewrite E3. cbv iota.
    assert (E4 : all2 n n (fun i j => f_at a [i; j]) prob01 = true).
    { apply all2_iff. intros i j Hi Hj. apply prob01_iff. exists (mget P i j). split; [apply HA; assumption|apply HP; assumption]. }
    rewrite E4. cbv iota zeta. rewrite HF. rewrite (proj2 (rows_close n n P (proj1 HM) ltac:(lia)) HS). reflexivity.
Qed.

Lemma v_emission_matrix_iff v size P : 0 < size -> (v_emission_matrix v size = Ok P <->
  exists m, 2 <= m /\ real_part_matrix v size m P /\ probabilities size m P /\ nearly_stochastic size m P).
Proof.
  intros Hpos. unfold v_emission_matrix. split.
  - destruct (extract_numeric v) as [a|] eqn:Ha; [|discriminate]. cbn [bind].
    destruct (f_shape a) as [|n [|m [|]]] eqn:Hs; try discriminate.
    destruct (Nat.eqb n size && Nat.leb 2 m) eqn:E1; cbv iota; [|discriminate]. apply andb_true_iff in E1. destruct E1 as [E1 E2].
    apply Nat.eqb_eq in E1; subst n. apply Nat.leb_le in E2.
    destruct (all2 size m _ prob01) eqn:E4; cbv iota; [|discriminate]. rewrite all2_iff in E4.
    cbv zeta. destruct (forallb _ _) eqn:E5; cbv iota; [|discriminate]. intros H; inversion H; subst; clear H.
    exists m. split; [exact E2|].
    split; [apply extract_matrix; auto; intros; apply prob01_finite; apply E4; assumption|].
    split; [apply fmat_prob; exact E4|]. apply rows_close; [apply wf_mk|lia|exact E5].
  - intros (m & Hn & HM & HP & HS). destruct (matrix_extract v size m P HM) as (a & -> & Hshape & HA & HF). cbn [bind]. rewrite Hshape.
    rewrite Nat.eqb_refl, (proj2 (Nat.leb_le 2 m) Hn). cbn [andb]. cbv iota.
    assert (E4 : all2 size m (fun i j => f_at a [i; j]) prob01 = true).
    { apply all2_iff. intros i j Hi Hj. apply prob01_iff. exists (mget P i j). split; [apply HA; assumption|apply HP; assumption]. }
    rewrite E4. cbv iota zeta. rewrite HF. rewrite (proj2 (rows_close size m P (proj1 HM) ltac:(lia)) HS). reflexivity.
Qed.

(** The states argument of the constructors. *)
Lemma strings_map l : forallb is_string l = true <-> l = map PStr (map as_str l) /\ forall s, In s (map as_str l) -> nonblank s = true.
Proof.
  induction l as [|v l IH]; cbn [forallb map]; [split; [intros _; split; [reflexivity|intros s []]|reflexivity]|].
  rewrite andb_true_iff, IH. split.
  - intros [H1 [H2 H3]]. destruct v; try discriminate. cbn in *. split; [congruence|]. intros s' [<-|Hs]; auto.
  - intros [H1 H2]. injection H1 as Hv Hl. split; [|split; [exact Hl|intros s Hs; apply H2; right; exact Hs]].
    rewrite Hv. cbn. apply H2. left; reflexivity.
Qed.
Lemma map_as_str l : map as_str (map PStr l) = l.
Proof. rewrite map_map. rewrite <- (map_id l) at 2. apply map_ext. reflexivity. Qed.

Lemma v_labels_input_iff v size l : v_labels_input v size = Ok l <->
  v = PList (map PStr l) /\ 2 <= length l /\ names_ok (length l) l /\ match size with None => True | Some n => length l = n end.
Proof.
  unfold v_labels_input. split.
  - destruct v; try discriminate. destruct (forallb is_string l0) eqn:E1; cbv iota; [|discriminate].
    apply strings_map in E1. destruct E1 as [E1 E1'].
    cbv zeta. destruct (Nat.leb 2 _) eqn:E2; cbv iota; [|discriminate]. apply Nat.leb_le in E2.
    destruct (nodupb _ _) eqn:E3; cbv iota; [|discriminate]. apply (nodupb_NoDup String.eqb String.eqb_eq) in E3.
    destruct (match size with None => true | Some n => Nat.eqb (length (map as_str l0)) n end) eqn:E4; cbv iota; [|discriminate].
    intros H; inversion H; subst; clear H. split; [f_equal; exact E1|]. split; [exact E2|]. split; [repeat split; auto|].
    destruct size; [apply Nat.eqb_eq; exact E4|exact I].
  - intros (-> & H2 & (_ & HN & HB) & Hs).
    assert (E1 : forallb is_string (map PStr l) = true) by (apply strings_map; rewrite map_as_str; auto). rewrite E1. cbv iota zeta.
    rewrite map_as_str. rewrite (proj2 (Nat.leb_le _ _) H2). cbv iota.
    rewrite (proj2 (nodupb_NoDup String.eqb String.eqb_eq l) HN). cbv iota.
    destruct size as [n|]; [rewrite (proj2 (Nat.eqb_eq _ _) Hs)|]; reflexivity.
Qed.

Lemma caller_false caller : existsb (String.eqb caller) instance_generators = false <-> user_caller caller.
Proof.
  unfold user_caller. rewrite <- not_true_iff_false, existsb_exists. split; intros H H1; apply H.
  - exists caller; split; [exact H1|apply String.eqb_refl].
  - destruct H1 as (x & Hx & E). apply String.eqb_eq in E. subst. exact Hx.
Qed.

Lemma names_argument_iff v n l : 2 <= n -> (match v with PNone => Ok (create_labels n "") | _ => v_labels_input v (Some n) end = Ok l <-> names_argument v n l).
Proof.
  intros Hn. unfold names_argument. split.
  - intros H. assert (HH : (v = PNone /\ create_labels n "" = l) \/ v_labels_input v (Some n) = Ok l) by (destruct v; try (right; exact H); left; split; [reflexivity|congruence]).
    destruct HH as [[-> <-]|HH]; [left; split; [reflexivity|apply create_labels_dec]|].
    apply v_labels_input_iff in HH. destruct HH as (-> & _ & HN & <-). right; split; [reflexivity|exact HN].
  - intros [[-> ->]|[-> HN]]; [rewrite create_labels_dec; reflexivity|]. apply v_labels_input_iff.
    destruct HN as (HL & HN). repeat split; try tauto; try lia. 
Qed.

Lemma construct_user caller p st o : user_caller caller ->
  (construct caller p st = Ok o <-> exists n P l, 2 <= n /\ real_part_matrix p n n P /\ probabilities n n P /\ nearly_stochastic n n P
     /\ names_argument st n l /\ o = mkrobj (map (map Fin) P) l).
Proof.
  intros Hc. unfold construct. rewrite (proj2 (caller_false caller) Hc). cbv iota. split.
  - destruct (v_transition_matrix p None) as [P|] eqn:E; [|discriminate]. apply v_transition_matrix_iff in E.
    destruct E as (n & Hn & _ & HM & HP & HS). cbn [bind]. rewrite (wf_nrows n n P (proj1 HM)).
    match goal with |- context [bind ?x _] => destruct x as [l|] eqn:El end; [|discriminate].
    apply (names_argument_iff st n l Hn) in El. intros H; inversion H; subst. exists n, P, l. auto 10.
  - intros (n & P & l & Hn & HM & HP & HS & HL & ->).
    assert (E : v_transition_matrix p None = Ok P) by (apply v_transition_matrix_iff; exists n; auto). rewrite E. cbn [bind].
    rewrite (wf_nrows n n P (proj1 HM)). apply (names_argument_iff st n l Hn) in HL. rewrite HL. reflexivity.
Qed.

(** ** Labels *)
Lemma in_range_iff z n : in_range z n = true <-> exists k, k < n /\ z = Z.of_nat k.
Proof.
  unfold in_range. rewrite andb_true_iff, Z.leb_le, Z.ltb_lt. split.
  - intros H. exists (Z.to_nat z). lia.
  - intros (k & Hk & ->). lia.
Qed.
Lemma find_label_Some labels s k : find_label labels s = Some k -> k < length labels /\ nth_error labels k = Some s.
Proof.
  intros H. apply (index_of_Some String.eqb String.eqb_eq) in H. destruct H as [H _].
  split; [|exact H]. apply nth_error_Some. congruence.
Qed.
Lemma find_label_iff labels s k : NoDup labels -> (find_label labels s = Some k <-> nth_error labels k = Some s).
Proof.
  intros HN. split; [intros H; apply find_label_Some; exact H|]. intros H. unfold find_label.
  destruct (index_of String.eqb s labels) as [k'|] eqn:E.
  - f_equal. apply (index_of_Some String.eqb String.eqb_eq) in E. destruct E as [E _].
    eapply NoDup_nth_error; [exact HN|apply nth_error_Some; congruence|congruence].
  - apply (index_of_None String.eqb String.eqb_eq) in E. exfalso. apply E. eapply nth_error_In; exact H.
Qed.

Lemma v_label_iff v labels k : NoDup labels -> (forall s, In s labels -> nonblank s = true) ->
  (v_label v labels = Ok k <-> designates1 labels v k).
Proof.
  intros HN HB. unfold v_label, designates1. split.
  - destruct v; cbn [is_integer is_string as_int as_str]; try discriminate.
    + destruct (in_range z (length labels)) eqn:E; cbv iota; [|discriminate]. apply in_range_iff in E.
      destruct E as (j & Hj & ->). intros H; inversion H; subst. rewrite Nat2Z.id. auto.
    + destruct (nonblank s) eqn:E; [|discriminate]. destruct (find_label labels s) as [j|] eqn:Ef; [|discriminate].
      intros H; inversion H; subst. destruct (find_label_Some _ _ _ Ef). split; [assumption|]. right. exists s; auto.
  - intros [Hk [-> |(s & -> & Hs)]]; cbn [is_integer is_string as_int as_str].
    + rewrite (proj2 (in_range_iff _ _)) by (exists k; auto). cbv iota. rewrite Nat2Z.id. reflexivity.
    + rewrite (HB s) by (eapply nth_error_In; exact Hs). rewrite (proj2 (find_label_iff labels s k HN) Hs). reflexivity.
Qed.

Lemma ints_map l n : forallb is_integer l = true -> forallb (fun v => in_range (as_int v) n) l = true ->
  l = map (fun k => PInt (Z.of_nat k)) (map (fun v => Z.to_nat (as_int v)) l) /\ forall k, In k (map (fun v => Z.to_nat (as_int v)) l) -> k < n.
Proof.
  induction l as [|v l IH]; cbn [forallb map]; [intros; split; [reflexivity|intros k []]|].
  rewrite !andb_true_iff. intros [H1 H2] [H3 H4]. destruct (IH H2 H4) as [E1 E2].
  destruct v; try discriminate. cbn [as_int] in *. apply in_range_iff in H3. destruct H3 as (k & Hk & ->).
  rewrite Nat2Z.id. split; [congruence|]. intros k' [<-|H]; auto.
Qed.

Lemma positions_iff l labels ks : NoDup labels -> (forall s, In s labels -> nonblank s = true) ->
  (positions l labels = Ok ks <-> designates_list labels l ks).
Proof.
  intros HN HB. unfold positions, designates_list. split.
  - destruct (forallb is_integer l) eqn:E1.
    + cbv iota. destruct (forallb (fun v => in_range (as_int v) (length labels)) l) eqn:E2; cbv iota; [|discriminate]. intros H; inversion H; subst; clear H.
      destruct (ints_map l _ E1 E2) as [H1 H2]. split; [exact H2|left; exact H1].
    + destruct (forallb is_string l) eqn:E2; [|discriminate]. intros H. apply mapM_ok_iff in H. clear E1. revert E2.
      induction H as [|v k l ks Hv H IH]; cbn [forallb map]; [intros _; split; [intros k []|right; reflexivity]|].
      rewrite andb_true_iff. intros [E2 E3]. destruct (find_label labels (as_str v)) as [k'|] eqn:Ef; [|discriminate].
      inversion Hv; subst; clear Hv. destruct (find_label_Some _ _ _ Ef) as [Hk Hn]. destruct (IH E3) as [H1 H2].
      split; [intros k' [<-|Hk']; auto|]. right. destruct v; try discriminate. cbn [as_str] in *.
      rewrite (nth_error_nth _ _ _ Hn). f_equal. destruct H2 as [H2|H2]; [|exact H2].
      destruct ks as [|k0 ks]; [exact H2|]. destruct l as [|v0 l]; [discriminate|]. inversion H2; subst. discriminate.
  - intros [Hk [-> | ->]].
    + assert (E1 : forallb is_integer (map (fun k => PInt (Z.of_nat k)) ks) = true).
      { apply forallb_forall. intros v Hv. apply in_map_iff in Hv. destruct Hv as (k & <- & _). reflexivity. }
      rewrite E1.
      assert (E2 : forallb (fun v => in_range (as_int v) (length labels)) (map (fun k => PInt (Z.of_nat k)) ks) = true).
      { apply forallb_forall. intros v Hv. apply in_map_iff in Hv. destruct Hv as (k & <- & Hv). cbn [as_int]. apply in_range_iff. exists k; auto. }
      rewrite E2. cbv iota. f_equal. rewrite map_map. cbn [as_int]. rewrite <- (map_id ks) at 2. apply map_ext. intros k; apply Nat2Z.id.
    + destruct ks as [|k0 ks0] eqn:Eks; [reflexivity|]. rewrite <- Eks in *.
      assert (E1 : forallb is_integer (map (fun k => PStr (nth k labels ""%string)) ks) = false) by (rewrite Eks; reflexivity). rewrite E1.
      assert (E2 : forallb is_string (map (fun k => PStr (nth k labels ""%string)) ks) = true).
      { apply forallb_forall. intros v Hv. apply in_map_iff in Hv. destruct Hv as (k & <- & Hv). cbn [is_string]. apply HB. apply nth_In. auto. }
      rewrite E2. apply mapM_ok_iff. clear -HN Hk. induction ks as [|k ks IH]; [constructor|].
      cbn [map]. constructor; [|apply IH; intros; apply Hk; right; assumption]. cbn [as_str].
      assert (Hn : nth_error labels k = Some (nth k labels ""%string)) by (apply nth_error_nth'; apply Hk; left; reflexivity).
      rewrite (proj2 (find_label_iff labels _ k HN) Hn). reflexivity.
Qed.
