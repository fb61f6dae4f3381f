(** L_Gen1: proofs about the generators (labels, from_matrix, parametric chains). *)
From Verif Require Import S_Gen M_Generators S_Gen2.
From Coq Require Import Ascii DecimalString DecimalNat DecimalFacts.

(** * Labels *)
Lemma dec_inj a b : dec a = dec b -> a = b.
Proof.
  unfold dec. intros H.
  assert (E : Some (Nat.to_uint a) = Some (Nat.to_uint b)).
  { rewrite <- (NilEmpty.usu (Nat.to_uint a)), <- (NilEmpty.usu (Nat.to_uint b)), H. reflexivity. }
  inversion E as [E']. apply DecimalNat.Unsigned.to_uint_inj in E'. exact E'.
Qed.

Lemma to_uint_nonnil n : Nat.to_uint n <> Decimal.Nil.
Proof.
  intros H. assert (E : Nat.of_uint (Nat.to_uint n) = n) by apply DecimalNat.Unsigned.of_to.
  rewrite H in E. simpl in E. subst n. discriminate.
Qed.

Lemma dec_nonblank n : nonblank (dec n) = true.
Proof.
  unfold dec. assert (H := to_uint_nonnil n). destruct (Nat.to_uint n); try reflexivity. congruence.
Qed.

Lemma append_inj p a b : String.append p a = String.append p b -> a = b.
Proof. induction p as [|c p IH]; simpl; intros H; [exact H|]. inversion H; auto. Qed.
Lemma append_nonblank p s : nonblank s = true -> nonblank (String.append p s) = true.
Proof. intros H; induction p as [|c p IH]; simpl; [exact H|]. rewrite IH; apply orb_true_r. Qed.

Lemma NoDup_map_inj {A B} (f : A -> B) l : (forall a b, In a l -> In b l -> f a = f b -> a = b) -> NoDup l -> NoDup (map f l).
Proof.
  induction l as [|x l IH]; intros Hf HN; simpl; [constructor|]. inversion HN; subst. constructor.
  - intros HI. apply in_map_iff in HI. destruct HI as (y & Hy & Hin).
    assert (y = x) by (apply Hf; simpl; auto). subst; contradiction.
  - apply IH; [|assumption]. intros; apply Hf; simpl; auto.
Qed.

Lemma create_labels_ok n p : names_ok n (create_labels n p).
Proof.
  unfold create_labels. repeat split.
  - rewrite map_length, seq_length; reflexivity.
  - apply NoDup_map_inj; [|apply seq_NoDup]. intros a b _ _ H. apply append_inj, dec_inj in H; exact H.
  - intros s Hs. apply in_map_iff in Hs. destruct Hs as (i & <- & _). apply append_nonblank, dec_nonblank.
Qed.

Lemma create_labels_dec n : create_labels n "" = map dec (seq 1 n).
Proof. reflexivity. Qed.

Lemma nodup_string l : nodupb String.eqb l = true <-> NoDup l.
Proof. apply nodupb_NoDup. intros; apply String.eqb_eq. Qed.

Lemma validate_labels_input_ok l n l' : validate_labels_input l (Some n) = Ok l' <->
  l' = l /\ 2 <= n /\ names_ok n l.
Proof.
  unfold validate_labels_input, names_ok.
  destruct (forallb nonblank l) eqn:E1.
  2:{ split; [discriminate|]. intros (_ & _ & _ & _ & H). rewrite <- not_true_iff_false in E1. exfalso; apply E1.
      apply forallb_forall; exact H. }
  destruct (Nat.leb_spec 2 (length l)) as [E2|E2].
  2:{ split; [discriminate|]. intros (_ & H & H2 & _). lia. }
  destruct (nodupb String.eqb l) eqn:E3.
  2:{ split; [discriminate|]. intros (_ & _ & _ & H & _). apply nodup_string in H. congruence. }
  destruct (Nat.eqb_spec (length l) n) as [E4|E4].
  2:{ split; [discriminate|]. intros (_ & _ & H & _). contradiction. }
  rewrite forallb_forall in E1. apply nodup_string in E3. split.
  - intros H; inversion H; subst. auto.
  - intros (-> & _). reflexivity.
Qed.

Lemma gen_states_ok st n l : 2 <= n -> gen_states st n (create_labels n "") = Ok l ->
  names_ok n l /\ names_requested st n l.
Proof.
  intros Hn. destruct st as [l'|]; simpl.
  - intros H. apply validate_labels_input_ok in H. destruct H as (-> & _ & H). auto.
  - intros H; inversion H; subst. split; [apply create_labels_ok|reflexivity].
Qed.

(** * Row normalisation *)
Lemma norm_any_stochastic n m M : 0 < n -> 0 < m -> wf n m M ->
  (forall i j, i < n -> j < m -> (0 <= mget M i j)%Qc) -> row_stochastic n m (norm_any M).
Proof.
  intros Hn Hm HM Hpos. unfold norm_any. assert (HF := wf_fill_any n m M Hn HM).
  assert (HFpos : forall i, i < n -> (0 < sumn m (fun l => mget (fill_any M) i l))%Qc).
  { intros i Hi. destruct (row_any M i) eqn:E.
    - assert (E' := E). apply (row_any_true n m) in E'; try assumption. destruct E' as (j & Hj & Hne).
      apply sumn_pos with (k := j); [exact Hj| |].
      + rewrite (mget_fill_any n m), E by assumption. specialize (Hpos i j Hi Hj).
        apply Qcle_lt_or_eq in Hpos. destruct Hpos as [|H]; [assumption|]. symmetry in H; contradiction.
      + intros l Hl. rewrite (mget_fill_any n m), E by assumption. auto.
    - rewrite (sumn_ext m _ (fun _ => 1q)).
      + rewrite sumn_const_n. assert (H := Qcn_pos m Hm). qclra.
      + intros l Hl. rewrite (mget_fill_any n m), E by assumption. reflexivity. }
  split; [apply wf_div_rows; assumption|]. split.
  - intros i j Hi Hj. rewrite (mget_div_rows n m) by assumption. apply Qc_div_nonneg; [|auto].
    rewrite (mget_fill_any n m) by assumption. destruct (row_any M i); [auto|discriminate].
  - intros i Hi. rewrite (sumn_ext m _ (fun j => mget (fill_any M) i j / sumn m (fun l => mget (fill_any M) i l))%Qc).
    + rewrite sumn_div. specialize (HFpos i Hi). apply Qc_div_self, Qc_lt_neq; exact HFpos.
    + intros j Hj. rewrite (mget_div_rows n m) by assumption. reflexivity.
Qed.

(** Rows already summing to one and not identically zero are left unchanged. *)
Lemma div_rows_unit n m M : 0 < n -> wf n m M -> (forall i, i < n -> sumn m (fun j => mget M i j) = 1q) -> div_rows M = M.
Proof.
  intros Hn HM HS. apply (mat_ext n m); [apply wf_div_rows; assumption|assumption|].
  intros i j Hi Hj. rewrite (mget_div_rows n m), HS by assumption. field. discriminate.
Qed.
Lemma fill_any_unit n m M : 0 < n -> wf n m M -> (forall i, i < n -> sumn m (fun j => mget M i j) = 1q) -> fill_any M = M.
Proof.
  intros Hn HM HS. apply (mat_ext n m); [apply wf_fill_any; assumption|assumption|].
  intros i j Hi Hj. rewrite (mget_fill_any n m) by assumption.
  destruct (row_any M i) eqn:E; [reflexivity|]. exfalso.
  assert (E0 : sumn m (fun j => mget M i j) = 0q).
  { apply sumn_0. intros l Hl. destruct (Qceqb_spec (mget M i l) 0q) as [H|H]; [exact H|].
    assert (row_any M i = true) by (apply (row_any_true n m); eauto). congruence. }
  rewrite HS in E0 by exact Hi. discriminate.
Qed.
Lemma norm_any_unit n m M : 0 < n -> wf n m M -> (forall i, i < n -> sumn m (fun j => mget M i j) = 1q) -> norm_any M = M.
Proof.
  intros Hn HM HS. unfold norm_any. rewrite (fill_any_unit n m) by assumption. apply (div_rows_unit n m); assumption.
Qed.

Lemma mforall_mget (f : Qc -> bool) n m M : wf n m M -> mforall f M = true ->
  forall i j, i < n -> j < m -> f (mget M i j) = true.
Proof.
  intros HM HF i j Hi Hj. unfold mforall in HF. rewrite forallb_forall in HF.
  assert (Hr := wf_mrow n m M i HM Hi). unfold mrow in Hr.
  assert (Hin : In (nth i M []) M) by (apply nth_In; destruct HM; lia).
  specialize (HF _ Hin). rewrite forallb_forall in HF. apply HF. unfold mget. apply nth_In. lia.
Qed.

(** * from_matrix *)
Lemma from_matrix_inv m st c : from_matrix m st = Ok c ->
  2 <= nrows m /\ wf (nrows m) (nrows m) m /\
  (forall i j, i < nrows m -> j < nrows m -> (0 <= mget m i j)%Qc) /\
  gen_states st (nrows m) (create_labels (nrows m) "") = Ok (ch_states c) /\ ch_p c = normalize_matrix m.
Proof.
  unfold from_matrix. destruct (is2d (nrows m) (nrows m) m) eqn:E1; [|discriminate].
  destruct (Nat.leb_spec 2 (nrows m)) as [E2|E2]; [|discriminate]. simpl.
  destruct (mforall (Qcleb 0) m) eqn:E3; [|discriminate].
  destruct (gen_states st _ _) as [l|] eqn:E4; [|discriminate]. simpl. intros H; inversion H; subst; simpl.
  apply wfb_wf in E1. repeat split; try assumption; try apply E1.
  intros i j Hi Hj. apply Qcleb_le. apply (mforall_mget (Qcleb 0) (nrows m) (nrows m) m); assumption.
Qed.

Lemma from_matrix_entries m st c i j : from_matrix m st = Ok c -> i < nrows m -> j < nrows m ->
  mget (ch_p c) i j = if isclose (sumn (nrows m) (fun l => mget m i l)) 0 then (1 / Qcn (nrows m))%Qc
                      else (mget m i j / sumn (nrows m) (fun l => mget m i l))%Qc.
Proof.
  intros H Hi Hj. apply from_matrix_inv in H. destruct H as (Hn & Hwf & _ & _ & ->).
  unfold normalize_matrix. rewrite (wf_ncols _ _ _ Hwf) by lia. rewrite mget_mk by assumption.
  rewrite (rowsum_eq (nrows m) (nrows m)) by (assumption || lia). reflexivity.
Qed.

Lemma from_matrix_valid m st c : from_matrix m st = Ok c -> valid_chain (nrows m) c /\ names_requested st (nrows m) (ch_states c).
Proof.
  intros H. assert (H' := from_matrix_inv _ _ _ H). destruct H' as (Hn & Hwf & Hpos & Hst & Hp).
  apply gen_states_ok in Hst; [|exact Hn]. destruct Hst as [Hst1 Hst2].
  assert (HS : forall i, i < nrows m -> isclose (sumn (nrows m) (fun l => mget m i l)) 0 = false ->
           (0 < sumn (nrows m) (fun l => mget m i l))%Qc).
  { intros i Hi E. destruct (Qcleb_spec (sumn (nrows m) (fun l => mget m i l)) 0q) as [L|L]; [|exact L].
    exfalso. assert (G : (0 <= sumn (nrows m) (fun l => mget m i l))%Qc) by (apply sumn_nonneg; auto).
    assert (Z0 : sumn (nrows m) (fun l => mget m i l) = 0q) by (apply Qcle_antisym; assumption).
    rewrite Z0 in E. discriminate. }
  split; [|exact Hst2]. split; [exact Hn|]. split; [|exact Hst1].
  split; [|split].
  - rewrite Hp. unfold normalize_matrix. rewrite (wf_ncols _ _ _ Hwf) by lia. apply wf_mk.
  - intros i j Hi Hj. rewrite (from_matrix_entries m st) by assumption.
    destruct (isclose _ _) eqn:E.
    + apply Qc_div_nonneg; [discriminate|]. apply Qcn_pos; lia.
    + apply Qc_div_nonneg; [auto|]. apply HS; assumption.
  - intros i Hi.
    rewrite (sumn_ext _ _ (fun j => if isclose (sumn (nrows m) (fun l => mget m i l)) 0 then (1 / Qcn (nrows m))%Qc
                      else (mget m i j / sumn (nrows m) (fun l => mget m i l))%Qc))
      by (intros j Hj; apply (from_matrix_entries m st); assumption).
    destruct (isclose _ _) eqn:E.
    + rewrite sumn_const_n. field. apply Qc_lt_neq, Qcn_pos. lia.
    + rewrite sumn_div. apply Qc_div_self, Qc_lt_neq, HS; assumption.
Qed.

Lemma from_matrix_total m : 2 <= nrows m -> wf (nrows m) (nrows m) m ->
  (forall i j, i < nrows m -> j < nrows m -> (0 <= mget m i j)%Qc) -> exists c, from_matrix m None = Ok c.
Proof.
  intros Hn Hwf Hpos. unfold from_matrix, is2d. rewrite (proj2 (wfb_wf _ _ _) Hwf).
  destruct (Nat.leb_spec 2 (nrows m)); [|lia]. simpl.
  assert (E : mforall (Qcleb 0) m = true).
  { unfold mforall. apply forallb_forall. intros r Hr. apply forallb_forall. intros x Hx.
    apply In_nth with (d := []) in Hr. destruct Hr as (i & Hi & <-).
    apply In_nth with (d := 0q) in Hx. destruct Hx as (j & Hj & <-).
    apply Qcleb_le. apply Hpos; [exact Hi|]. assert (HL := wf_mrow _ _ m i Hwf Hi). unfold mrow in HL. lia. }
  rewrite E. eexists; reflexivity.
Qed.

(** * Tridiagonal rows *)
Lemma sumn_delta_c n k c : k < n -> sumn n (fun i => delta k i * c)%Qc = c.
Proof. intros H. rewrite sumn_mul_r, sumn_delta by exact H. ring. Qed.

Lemma sumn_delta3 n i a b c : 0 < i -> S i < n ->
  sumn n (fun j => delta (i - 1) j * a + delta i j * b + delta (S i) j * c)%Qc = (a + b + c)%Qc.
Proof.
  intros H1 H2. rewrite !sumn_plus, !sumn_delta_c by lia. reflexivity.
Qed.

Lemma sumn_tri n i f a b c : 0 < i -> S i < n ->
  (forall j, j < n -> f j = if Nat.eqb (S j) i then a else if Nat.eqb j i then b else if Nat.eqb j (S i) then c else 0q) ->
  sumn n f = (a + b + c)%Qc.
Proof.
  intros H1 H2 Hf. rewrite <- (sumn_delta3 n i a b c H1 H2). apply sumn_ext. intros j Hj.
  rewrite Hf by exact Hj. unfold delta.
  destruct (Nat.eqb_spec (S j) i), (Nat.eqb_spec j i), (Nat.eqb_spec j (S i)),
    (Nat.eqb_spec (i - 1) j), (Nat.eqb_spec i j), (Nat.eqb_spec (S i) j); try lia; ring.
Qed.

(** * gamblers_ruin *)
Lemma mc_gamblers_ruin_stochastic n w : 3 <= n -> (0 < w < 1)%Qc -> stochastic n (mc_gamblers_ruin n w).
Proof.
  intros Hn [Hw0 Hw1]. split; [apply wf_mk|]. split.
  - intros i j Hi Hj. unfold mc_gamblers_ruin. rewrite mget_mk by assumption.
    destruct (Nat.eqb i 0); [apply delta_nonneg|]. destruct (Nat.eqb i (n - 1)); [apply delta_nonneg|].
    destruct (Nat.eqb (S j) i); [qclra|]. destruct (Nat.eqb j (S i)); [qclra|discriminate].
  - intros i Hi. unfold mc_gamblers_ruin.
    destruct (Nat.eqb_spec i 0) as [E|E].
    { rewrite (sumn_ext n _ (fun j => delta 0 j)); [apply sumn_delta; lia|].
      intros j Hj. rewrite mget_mk by assumption. subst i. reflexivity. }
    destruct (Nat.eqb_spec i (n - 1)) as [E2|E2].
    { rewrite (sumn_ext n _ (fun j => delta (n - 1) j)); [apply sumn_delta; lia|].
      intros j Hj. rewrite mget_mk by assumption.
      destruct (Nat.eqb_spec i 0); [lia|]. destruct (Nat.eqb_spec i (n - 1)); [reflexivity|lia]. }
    rewrite (sumn_tri n i _ (1 - w) 0q w)%Qc; [ring|lia|lia|].
    intros j Hj. rewrite mget_mk by assumption. destruct (Nat.eqb_spec i 0); [lia|].
    destruct (Nat.eqb_spec i (n - 1)); [lia|].
    destruct (Nat.eqb_spec (S j) i); [reflexivity|]. destruct (Nat.eqb_spec j i); [|reflexivity].
    destruct (Nat.eqb_spec j (S i)); [lia|reflexivity].
Qed.

Lemma gamblers_ruin_spec size w st c : gamblers_ruin size w st = Ok c ->
  let n := Z.to_nat size in
  (3 <= size)%Z /\ valid_chain n c /\ names_requested st n (ch_states c) /\
  (forall j, j < n -> mget (ch_p c) 0 j = delta 0 j /\ mget (ch_p c) (n - 1) j = delta (n - 1) j) /\
  (forall i, 0 < i < n - 1 -> mget (ch_p c) i (i + 1) = w /\ mget (ch_p c) i (i - 1) = (1 - w)%Qc
      /\ forall j, j < n -> j <> i + 1 -> j <> i - 1 -> mget (ch_p c) i j = 0q).
Proof.
  unfold gamblers_ruin. destruct (Z.leb_spec 3 size) as [Hs|Hs]; [|discriminate].
  destruct (Qcltb_spec 0 w) as [W0|W0]; [|discriminate]. destruct (Qcltb_spec w 1) as [W1|W1]; [|discriminate].
  cbn [andb]. set (n := Z.to_nat size). assert (Hn : 3 <= n) by (unfold n; lia).
  destruct (gen_states st n _) as [l|] eqn:E; [|discriminate]. simpl. intros H; inversion H; subst c; simpl.
  apply gen_states_ok in E; [|lia]. destruct E as [E1 E2].
  split; [exact Hs|]. split; [split; [lia|split; [apply mc_gamblers_ruin_stochastic; auto|exact E1]]|].
  split; [exact E2|]. split.
  - intros j Hj. unfold mc_gamblers_ruin. rewrite !mget_mk by lia. split; [reflexivity|].
    destruct (Nat.eqb_spec (n - 1) 0); [lia|]. rewrite Nat.eqb_refl. reflexivity.
  - intros i Hi. unfold mc_gamblers_ruin.
    assert (G : forall j, j < n -> mget (mk n n (fun i j => if Nat.eqb i 0 then delta 0 j
        else if Nat.eqb i (n - 1) then delta (n - 1) j else if Nat.eqb (S j) i then (1 - w)%Qc
        else if Nat.eqb j (S i) then w else 0q)) i j =
        if Nat.eqb (S j) i then (1 - w)%Qc else if Nat.eqb j (S i) then w else 0q).
    { intros j Hj. rewrite mget_mk by lia. destruct (Nat.eqb_spec i 0); [lia|].
      destruct (Nat.eqb_spec i (n - 1)); [lia|]. reflexivity. }
    split; [|split].
    + rewrite G by lia. destruct (Nat.eqb_spec (S (i + 1)) i); [lia|]. destruct (Nat.eqb_spec (i + 1) (S i)); [reflexivity|lia].
    + rewrite G by lia. destruct (Nat.eqb_spec (S (i - 1)) i); [reflexivity|lia].
    + intros j Hj H1 H2. rewrite G by lia. destruct (Nat.eqb_spec (S j) i); [lia|].
      destruct (Nat.eqb_spec j (S i)); [lia|reflexivity].
Qed.

Lemma gamblers_ruin_total size w : (3 <= size)%Z -> (0 < w < 1)%Qc -> exists c, gamblers_ruin size w None = Ok c.
Proof.
  intros Hs [H0 H1]. unfold gamblers_ruin. destruct (Z.leb_spec 3 size); [|lia].
  apply Qcltb_lt in H0, H1. rewrite H0, H1. eexists; reflexivity.
Qed.

(** * identity *)
Lemma eye_stochastic n : 0 < n -> stochastic n (eye n).
Proof.
  intros Hn. split; [apply wf_eye|]. split.
  - intros. rewrite mget_eye by assumption. apply delta_nonneg.
  - intros i Hi. rewrite (sumn_ext n _ (fun j => delta i j)) by (intros; apply mget_eye; assumption).
    apply sumn_delta; exact Hi.
Qed.
Lemma identity_spec size st c : identity size st = Ok c ->
  (2 <= size)%Z /\ valid_chain (Z.to_nat size) c /\ names_requested st (Z.to_nat size) (ch_states c) /\
  (forall i j, i < Z.to_nat size -> j < Z.to_nat size -> mget (ch_p c) i j = delta i j).
Proof.
  unfold identity. destruct (Z.leb_spec 2 size) as [Hs|Hs]; [|discriminate].
  destruct (gen_states st _ _) as [l|] eqn:E; [|discriminate]. simpl. intros H; inversion H; subst c; simpl.
  apply gen_states_ok in E; [|lia]. destruct E as [E1 E2].
  split; [exact Hs|]. split; [split; [lia|split; [apply eye_stochastic; lia|exact E1]]|].
  split; [exact E2|]. intros; apply mget_eye; assumption.
Qed.

(** * birth_death *)
Lemma validate_vector_ok v t s v' : validate_vector v t s = Ok v' ->
  v' = v /\ 0 < length v /\ (forall n, s = Some n -> length v = n) /\
  (forall i, i < length v -> (0 <= vget v i <= 1)%Qc) /\
  (t = Annihilation -> (vget v 0 <= atol)%Qc) /\ (t = Creation -> (vget v (length v - 1) <= atol)%Qc) /\
  (t = StochasticV -> (Qcabs (lsum v - 1) <= atol + rtol)%Qc).
Proof.
  unfold validate_vector. destruct (Nat.eqb_spec (length v) 0) as [E|E]; [discriminate|]. simpl.
  destruct (match s with None => true | Some n => Nat.eqb (length v) n end) eqn:ES; [|discriminate].
  destruct (forallb in01 v) eqn:E1; [|discriminate].
  assert (Hs : forall n, s = Some n -> length v = n).
  { intros n ->. apply Nat.eqb_eq in ES. exact ES. }
  assert (H01 : forall i, i < length v -> (0 <= vget v i <= 1)%Qc).
  { rewrite forallb_forall in E1. intros i Hi. assert (Hx := E1 (vget v i) (nth_In v 0q Hi)).
    unfold in01 in Hx. apply andb_true_iff in Hx. destruct Hx as [A B]. apply Qcleb_le in A, B. auto. }
  assert (Habs : forall i, i < length v -> Qcabs (vget v i) = vget v i).
  { intros i Hi. apply Qcabs_eq_nonneg, H01, Hi. }
  destruct t.
  - destruct (isclose _ _) eqn:E2; [|discriminate]. intros H; inversion H; subst.
    apply isclose_0 in E2. rewrite Habs in E2 by lia.
    repeat split; try (intros; discriminate); auto; try lia; apply H01; assumption.
  - destruct (isclose _ _) eqn:E2; [|discriminate]. intros H; inversion H; subst.
    apply isclose_0 in E2. rewrite Habs in E2 by lia.
    repeat split; try (intros; discriminate); auto; try lia; apply H01; assumption.
  - destruct (isclose _ _) eqn:E2; [|discriminate]. intros H; inversion H; subst.
    apply isclose_1 in E2.
    repeat split; try (intros; discriminate); auto; try lia; apply H01; assumption.
  - intros H; inversion H; subst. repeat split; try (intros; discriminate); auto; try lia; apply H01; assumption.
Qed.


Definition bd_m (p q : vec) : mat :=
  mk (length p) (length p) (fun i j => if isclose (bd_cell p q i j) 0 then 0q else bd_cell p q i j).

Lemma mc_birth_death_eq p q : mc_birth_death p q = norm_any (bd_m p q).
Proof.
  unfold mc_birth_death, bd_m. f_equal. apply mk_ext. intros i j Hi Hj.
  rewrite !mget_mk by assumption. rewrite vget_tab by assumption.
  assert (E : ((if Nat.eqb i j then 1 - vget q i - vget p i else 0q)
              + (if Nat.eqb j (S i) then vget p i else 0q) + (if Nat.eqb i (S j) then vget q i else 0q))%Qc = bd_cell p q i j).
  { unfold bd_cell. destruct (Nat.eqb_spec i j), (Nat.eqb_spec j (S i)), (Nat.eqb_spec i (S j)),
      (Nat.eqb_spec j (i + 1)), (Nat.eqb_spec i (j + 1)); try lia; ring. }
  rewrite E. reflexivity.
Qed.

Lemma bd_inv p q st c : birth_death p q st = Ok c ->
  0 < length p /\ length q = length p /\
  (forall i, i < length p -> (0 <= vget p i /\ 0 <= vget q i /\ vget p i + vget q i <= 1)%Qc) /\
  (vget p (length p - 1) <= atol)%Qc /\ (vget q 0 <= atol)%Qc /\
  gen_states st (length p) (create_labels (length p) "") = Ok (ch_states c) /\
  ch_p c = mc_birth_death p q.
Proof.
  unfold birth_death. destruct (validate_vector p Creation None) as [p'|] eqn:Ep; [|discriminate]. simpl.
  destruct (validate_vector q Annihilation None) as [q'|] eqn:Eq; [|discriminate]. simpl.
  apply validate_vector_ok in Ep, Eq. destruct Ep as (-> & Hp & _ & Hp01 & _ & Hlast & _).
  destruct Eq as (-> & Hq & _ & Hq01 & Hfirst & _ & _).
  destruct (gen_states st _ _) as [l|] eqn:E; [|discriminate]. simpl.
  destruct (Nat.eqb_spec (length p) (length q)) as [HL|]; [|discriminate].
  destruct (forallb _ (seq 0 (length p))) eqn:E2; [|discriminate]. intros H; inversion H; subst c; simpl.
  rewrite forallb_forall in E2.
  split; [exact Hp|]. split; [auto|]. split.
  { intros i Hi. split; [apply Hp01; exact Hi|]. split; [apply Hq01; lia|].
    assert (X := E2 i ltac:(apply in_seq; lia)). apply Qcleb_le in X. qclra. }
  split; [auto|]. split; [auto|]. split; reflexivity || exact E.
Qed.

Lemma bd_cell_nonneg p q i j : (0 <= vget p i /\ 0 <= vget q i /\ vget p i + vget q i <= 1)%Qc -> (0 <= bd_cell p q i j)%Qc.
Proof.
  intros (H1 & H2 & H3). unfold bd_cell. destruct (Nat.eqb j (i + 1)); [exact H1|].
  destruct (Nat.eqb i (j + 1)); [exact H2|]. destruct (Nat.eqb i j); [qclra|discriminate].
Qed.

Lemma bd_stochastic p q st c : birth_death p q st = Ok c -> stochastic (length p) (ch_p c).
Proof.
  intros H. apply bd_inv in H. destruct H as (Hp & HL & H01 & _ & _ & _ & ->).
  rewrite mc_birth_death_eq. apply norm_any_stochastic; try exact Hp; [apply wf_mk|].
  intros i j Hi Hj. unfold bd_m. rewrite mget_mk by assumption. destruct (isclose _ _); [discriminate|].
  apply bd_cell_nonneg. auto.
Qed.

Lemma sumn_bd_cell p q n i : i < n -> n = length p ->
  sumn n (fun j => bd_cell p q i j) =
   (1 - (if Nat.eqb i (n - 1) then vget p i else 0) - (if Nat.eqb i 0 then vget q i else 0))%Qc.
Proof.
  intros Hi Hn.
  rewrite (sumn_ext n _ (fun j => delta i j * (1 - vget p i - vget q i)
     + ((if Nat.eqb i (n - 1) then 0 else delta (S i) j * vget p i) + (if Nat.eqb i 0 then 0 else delta (i - 1) j * vget q i)))%Qc).
  - rewrite sumn_plus, sumn_delta_c by exact Hi. rewrite sumn_plus.
    destruct (Nat.eqb_spec i (n - 1)) as [E1|E1].
    + rewrite (sumn_0 n (fun _ => 0q)) by reflexivity. destruct (Nat.eqb_spec i 0) as [E2|E2].
      * rewrite (sumn_0 n (fun _ => 0q)) by reflexivity. ring.
      * rewrite sumn_delta_c by lia. ring.
    + rewrite sumn_delta_c by lia. destruct (Nat.eqb_spec i 0) as [E2|E2].
      * rewrite (sumn_0 n (fun _ => 0q)) by reflexivity. ring.
      * rewrite sumn_delta_c by lia. ring.
  - intros j Hj. unfold bd_cell, delta.
    destruct (Nat.eqb_spec j (i + 1)), (Nat.eqb_spec i (j + 1)), (Nat.eqb_spec i j), (Nat.eqb_spec (S i) j), (Nat.eqb_spec (i - 1) j),
      (Nat.eqb_spec i (n - 1)), (Nat.eqb_spec i 0); try lia; ring.
Qed.

(** Off-tridiagonal entries are always zero. *)
Lemma bd_support p q st c i j : birth_death p q st = Ok c -> i < length p -> j < length p ->
  j <> i + 1 -> i <> j + 1 -> i <> j -> mget (ch_p c) i j = 0q.
Proof.
  intros H Hi Hj N1 N2 N3. assert (H' := bd_inv _ _ _ _ H). destruct H' as (Hp & HL & H01 & Hlast & Hfirst & _ & Hc).
  rewrite Hc, mc_birth_death_eq. set (n := length p) in *.
  assert (W : wf n n (bd_m p q)) by apply wf_mk.
  assert (Cell : forall j, j < n -> mget (bd_m p q) i j = if isclose (bd_cell p q i j) 0 then 0q else bd_cell p q i j).
  { intros j' Hj'. unfold bd_m. rewrite mget_mk by assumption. reflexivity. }
  (* some cell of the row survives *)
  assert (HA : row_any (bd_m p q) i = true).
  { destruct (row_any (bd_m p q) i) eqn:E; [reflexivity|]. exfalso.
    assert (Z : forall j, j < n -> (bd_cell p q i j <= atol)%Qc).
    { intros j' Hj'. destruct (isclose (bd_cell p q i j') 0) eqn:E2.
      - apply isclose_0 in E2. rewrite Qcabs_eq_nonneg in E2 by (apply bd_cell_nonneg; auto). exact E2.
      - exfalso. assert (row_any (bd_m p q) i = true); [|congruence].
        apply (row_any_true n n); try assumption. exists j'. split; [exact Hj'|]. rewrite Cell, E2 by exact Hj'.
        intros E3. rewrite E3 in E2. discriminate. }
    assert (B : forall k, (vget p k <= atol)%Qc \/ k <> i). { intros k. destruct (Nat.eq_dec k i); [left|right; assumption].
      subst k. destruct (Nat.eq_dec i (n - 1)) as [->|Hne]; [exact Hlast|].
      assert (X := Z (i + 1) ltac:(lia)). unfold bd_cell in X. rewrite Nat.eqb_refl in X. exact X. }
    assert (Bp : (vget p i <= atol)%Qc) by (destruct (B i); [assumption|congruence]).
    assert (Bq : (vget q i <= atol)%Qc).
    { destruct (Nat.eq_dec i 0) as [->|Hne]; [exact Hfirst|].
      assert (X := Z (i - 1) ltac:(lia)). unfold bd_cell in X. destruct (Nat.eqb_spec (i - 1) (i + 1)); [lia|].
      destruct (Nat.eqb_spec i (i - 1 + 1)); [exact X|lia]. }
    assert (Br := Z i Hi). unfold bd_cell in Br. destruct (Nat.eqb_spec i (i + 1)); [lia|]. rewrite Nat.eqb_refl in Br.
    revert Bp Bq Br. unfold atol. generalize (vget p i) (vget q i). intros a b B1 B2 B3. qclra. }
  unfold norm_any. rewrite (mget_div_rows n n) by (try assumption; apply wf_fill_any; assumption).
  rewrite (mget_fill_any n n) by assumption. rewrite HA, Cell by exact Hj.
  assert (E0 : bd_cell p q i j = 0q).
  { unfold bd_cell. destruct (Nat.eqb_spec j (i + 1)); [lia|]. destruct (Nat.eqb_spec i (j + 1)); [lia|].
    destruct (Nat.eqb_spec i j); [lia|reflexivity]. }
  rewrite E0. simpl. change (isclose 0q 0q) with true. cbv iota. unfold Qcdiv. ring.
Qed.

(** Exact entries when no probability lies strictly between 0 and 1e-8. *)

Lemma not_tiny_close x : not_tiny x -> (if isclose x 0 then 0q else x) = x.
Proof.
  intros [->|H]; [reflexivity|]. destruct (isclose x 0) eqn:E; [|reflexivity].
  apply isclose_0 in E. assert (0 <= x)%Qc. { unfold atol in H. qclra. }
  rewrite Qcabs_eq_nonneg in E by assumption. exfalso. apply (Qclt_irr x). eapply Qcle_lt_trans; eassumption.
Qed.

Lemma bd_entries p q st c : birth_death p q st = Ok c ->
  (forall i, i < length p -> not_tiny (vget p i) /\ not_tiny (vget q i) /\ not_tiny (1 - vget p i - vget q i)%Qc) ->
  forall i j, i < length p -> j < length p -> mget (ch_p c) i j = bd_cell p q i j.
Proof.
  intros H HT i j Hi Hj. apply bd_inv in H. destruct H as (Hp & HL & H01 & Hlast & Hfirst & _ & ->).
  assert (HE : bd_m p q = mk (length p) (length p) (bd_cell p q)).
  { apply mk_ext. intros a b Ha Hb. apply not_tiny_close. destruct (HT a Ha) as (T1 & T2 & T3).
    unfold bd_cell. destruct (Nat.eqb b (a + 1)); [exact T1|]. destruct (Nat.eqb a (b + 1)); [exact T2|].
    destruct (Nat.eqb a b); [exact T3|left; reflexivity]. }
  assert (Zl : vget p (length p - 1) = 0q).
  { destruct (HT (length p - 1) ltac:(lia)) as ([Z|Z] & _); [exact Z|]. exfalso.
    apply (Qclt_irr atol). eapply Qclt_le_trans; eassumption. }
  assert (Zf : vget q 0 = 0q).
  { destruct (HT 0 ltac:(lia)) as (_ & [Z|Z] & _); [exact Z|]. exfalso.
    apply (Qclt_irr atol). eapply Qclt_le_trans; eassumption. }
  rewrite mc_birth_death_eq, HE.
  rewrite (norm_any_unit (length p) (length p)); [rewrite mget_mk by assumption; reflexivity|lia|apply wf_mk|].
  intros a Ha. rewrite (sumn_ext _ _ (fun j => bd_cell p q a j)) by (intros; rewrite mget_mk by assumption; reflexivity).
  rewrite sumn_bd_cell by (assumption || reflexivity).
  assert (A1 : (if Nat.eqb a (length p - 1) then vget p a else 0q) = 0q)
    by (destruct (Nat.eqb_spec a (length p - 1)) as [E|E]; [rewrite E; exact Zl|reflexivity]).
  assert (A2 : (if Nat.eqb a 0 then vget q a else 0q) = 0q)
    by (destruct (Nat.eqb_spec a 0) as [E|E]; [rewrite E; exact Zf|reflexivity]).
  rewrite A1, A2. ring.
Qed.
