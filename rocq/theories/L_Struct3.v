(** L_Struct3: walks, accessibility (with 64-bit integers) and regularity. *)
From Coq Require Import Permutation Sorted.
From Verif Require Export L_Struct2.

(* ---------- walks as vertex sequences ---------- *)
Section Walks.
Context (n : nat) (E : nat -> nat -> Prop).

Lemma walk_verts k i j : walk n E k i j <->
  exists v, v 0 = i /\ v k = j /\ (forall t, t <= k -> v t < n) /\ (forall t, t < k -> E (v t) (v (S t))).
Proof.
  split.
  - induction 1 as [i Hi|k i j l Hi Hj He Hw (v & H0 & Hk & Hb & Hs)].
    + exists (fun _ => i). repeat split; [intros; exact Hi|intros; lia].
    + exists (fun t => match t with O => i | S t' => v t' end). repeat split.
      * exact Hk.
      * intros [|t] Ht; [exact Hi|apply Hb; lia].
      * intros [|t] Ht; [rewrite H0; exact He|apply Hs; lia].
  - revert i. induction k as [|k IH]; intros i (v & H0 & Hk & Hb & Hs).
    + subst. constructor. apply Hb. lia.
    + subst i. econstructor; [apply (Hb 0); lia|apply (Hb 1); lia|apply (Hs 0); lia|]. apply IH. exists (fun t => v (S t)).
      repeat split; [exact Hk|intros; apply Hb; lia|intros; apply Hs; lia].
Qed.
Lemma verts_walk v k a b : (forall t, t <= k -> v t < n) -> (forall t, t < k -> E (v t) (v (S t))) -> a <= b -> b <= k -> walk n E (b - a) (v a) (v b).
Proof.
  intros Hb Hs Hab Hbk. apply walk_verts. exists (fun t => v (a + t)). repeat split.
  - f_equal; lia.
  - f_equal; lia.
  - intros t Ht; apply Hb; lia.
  - intros t Ht. rewrite <- plus_n_Sm. apply Hs; lia.
Qed.
Lemma walk_split a b i j : walk n E (a + b) i j -> exists x, walk n E a i x /\ walk n E b x j.
Proof.
  intros H. apply walk_verts in H. destruct H as (v & H0 & Hk & Hb & Hs). exists (v a). subst. split.
  - replace a with (a - 0) at 1 by lia. eapply verts_walk; try eassumption; lia.
  - replace b with (a + b - a) at 1 by lia. eapply verts_walk; try eassumption; lia.
Qed.

Lemma inj_or_dup (v : nat -> nat) k : (forall a b, a < b -> b < k -> v a <> v b) \/ (exists a b, a < b /\ b < k /\ v a = v b).
Proof.
  induction k as [|k [IH|(a & b & H1 & H2 & H3)]].
  - left. intros; lia.
  - destruct (existsb (fun a => Nat.eqb (v a) (v k)) (seq 0 k)) eqn:Ex.
    + right. apply existsb_exists in Ex. destruct Ex as (a & Ha & He). apply in_seq in Ha. apply Nat.eqb_eq in He. exists a, k. repeat split; [lia|lia|exact He].
    + left. intros a b Hab Hb. destruct (Nat.eq_dec b k) as [->|Hne]; [|apply IH; lia]. intros C.
      assert (T : existsb (fun a => Nat.eqb (v a) (v k)) (seq 0 k) = true); [|congruence]. apply existsb_exists. exists a. split; [apply in_seq; lia|apply Nat.eqb_eq; exact C].
  - right. exists a, b. repeat split; [exact H1|lia|exact H3].
Qed.

(** Shortest walk into a set. *)
Lemma short_walk D k i x : NoDup D -> (forall d, In d D -> d < n) -> In x D -> walk n E k i x ->
  exists k' y, In y D /\ walk n E k' i y /\ k' + length D <= n.
Proof.
  intros HD HDn. revert i x. induction k as [k IH] using lt_wf_ind. intros i x Hx Hw. pose proof Hw as Hw'.
  apply walk_verts in Hw'. destruct Hw' as (v & H0 & Hk & Hb & Hs).
  destruct (existsb (fun t => memn (v t) D) (seq 0 k)) eqn:Ex.
  - apply existsb_exists in Ex. destruct Ex as (t & Ht & Hm). apply in_seq in Ht. apply memn_In in Hm.
    apply (IH t ltac:(lia) i (v t) Hm). subst i. replace t with (t - 0) at 1 by lia. eapply verts_walk; try eassumption; lia.
  - assert (Hnd : forall t, t < k -> ~ In (v t) D).
    { intros t Ht C. assert (T : existsb (fun t => memn (v t) D) (seq 0 k) = true); [|congruence]. apply existsb_exists. exists t. split; [apply in_seq; lia|apply memn_In; exact C]. }
    destruct (inj_or_dup v k) as [Hinj|(a & b & Hab & Hbk & Heq)].
    + exists k, x. split; [exact Hx|]. split; [exact Hw|].
      assert (HN : NoDup (map v (seq 0 k) ++ D)).
      { assert (HNv : NoDup (map v (seq 0 k))).
        { apply NoDup_map_inj; [|apply seq_NoDup]. intros a b Ha Hb' He. apply in_seq in Ha, Hb'. destruct (Nat.lt_trichotomy a b) as [L|[L|L]]; [|exact L|]; exfalso; [apply (Hinj a b)|apply (Hinj b a)]; try lia; congruence. }
        assert (Hd : forall y, In y (map v (seq 0 k)) -> ~ In y D).
        { intros y Hy. apply in_map_iff in Hy. destruct Hy as (t & <- & Ht). apply in_seq in Ht. apply Hnd. lia. }
        clear - HNv HD Hd. induction (map v (seq 0 k)) as [|y l IH]; simpl; [exact HD|]. inversion HNv; subst. constructor.
        - rewrite in_app_iff. intros [C|C]; [contradiction|]. apply (Hd y); [left; reflexivity|exact C].
        - apply IH; [assumption|intros; apply Hd; right; assumption]. }
      apply NoDup_incl_length with (l' := seq 0 n) in HN.
      * rewrite app_length, map_length, !seq_length in HN. exact HN.
      * intros y Hy. apply in_app_iff in Hy. apply in_seq. destruct Hy as [Hy|Hy]; [|specialize (HDn y Hy); lia].
        apply in_map_iff in Hy. destruct Hy as (t & <- & Ht). apply in_seq in Ht. specialize (Hb t ltac:(lia)). lia.
    + apply (IH (a + (k - b)) ltac:(lia) i x Hx). eapply walk_app with (j := v a).
      * subst i. replace a with (a - 0) at 1 by lia. eapply verts_walk; try eassumption; lia.
      * rewrite Heq. subst x. eapply verts_walk; try eassumption; lia.
Qed.
Lemma short_reach i j : reach n E i j -> exists k, walk n E k i j /\ k + 1 <= n.
Proof.
  intros [k Hk]. destruct (short_walk [j] k i j) as (k' & y & Hy & Hw & Hl).
  - constructor; [intros []|constructor].
  - intros d [<-|[]]. apply (walk_bounds _ _ _ _ _ Hk).
  - left; reflexivity.
  - exact Hk.
  - destruct Hy as [<-|[]]. exists k'. split; [exact Hw|exact Hl].
Qed.

(** A shortest closed walk has at most n steps. *)
Lemma short_cycle i k : walk n E (S k) i i -> exists s x, 1 <= s <= n /\ walk n E s x x.
Proof.
  intros Hw. inversion Hw; subst. destruct (short_reach j i) as (s & Hs & Hl); [exists k; assumption|].
  exists (S s), i. split; [lia|]. econstructor; eassumption.
Qed.
Lemma walk_repeat s x m : walk n E s x x -> walk n E (m * s) x x.
Proof. intros H. induction m as [|m IH]; simpl; [constructor; apply (walk_bounds _ _ _ _ _ H)|]. eapply walk_app; eassumption. Qed.

(** Irreducible graph with loops at D: any two states are joined by a walk of
    exactly 2 n - |D| - 1 steps. *)
Lemma loops_exponent D : NoDup D -> D <> [] -> (forall d, In d D -> d < n /\ E d d) -> irreducible n E ->
  forall i j, i < n -> j < n -> walk n E (2 * n - length D - 1) i j.
Proof.
  intros HD HDne HDl HI i j Hi Hj. destruct D as [|d0 D'] eqn:ED; [congruence|]. rewrite <- ED in *.
  assert (Hd0 : In d0 D) by (subst; left; reflexivity).
  destruct (HI i d0 Hi (proj1 (HDl d0 Hd0))) as [k0 Hk0].
  destruct (short_walk D k0 i d0 HD (fun d Hd => proj1 (HDl d Hd)) Hd0 Hk0) as (k1 & y & Hy & Hw1 & Hl1).
  destruct (short_reach y j) as (k2 & Hw2 & Hl2); [apply HI; [apply HDl; exact Hy|exact Hj]|].
  assert (HDlen : 1 <= length D) by (rewrite ED; simpl; lia).
  set (r := 2 * n - length D - 1 - k1 - k2).
  replace (2 * n - length D - 1) with (k1 + (r + k2)) by (unfold r; lia).
  eapply walk_app; [exact Hw1|]. eapply walk_app; [|exact Hw2].
  replace r with (r * 1) by lia. apply walk_repeat. destruct (HDl y Hy) as [Hyn Hyy]. econstructor; [exact Hyn|exact Hyn|exact Hyy|constructor; exact Hyn].
Qed.

Definition full (m : nat) : Prop := forall i j, i < n -> j < n -> walk n E m i j.
Definition total : Prop := forall i, i < n -> exists j, j < n /\ E i j.
Lemma full_S m : total -> full m -> full (S m).
Proof. intros HT HF i j Hi Hj. destruct (HT i Hi) as (x & Hx & He). econstructor; [exact Hi|exact Hx|exact He|apply HF; assumption]. Qed.
Lemma full_le m m' : total -> m <= m' -> full m -> full m'.
Proof. intros HT HL HF. induction HL; [exact HF|apply full_S; assumption]. Qed.
End Walks.

Lemma walk_power n E s m i j : walk n (fun a b => walk n E s a b) m i j -> walk n E (m * s) i j.
Proof. induction 1 as [i Hi|k i j l Hi Hj He Hw IH]; simpl; [constructor; exact Hi|]. eapply walk_app; eassumption. Qed.
Lemma power_walk n E s m i j : walk n E (m * s) i j -> walk n (fun a b => walk n E s a b) m i j.
Proof.
  revert i. induction m as [|m IH]; simpl; intros i H; [inversion H; subst; constructor; assumption|].
  apply walk_split in H. destruct H as (x & H1 & H2). econstructor; [apply (walk_bounds _ _ _ _ _ H1)|apply (walk_bounds _ _ _ _ _ H1)|exact H1|apply IH; exact H2].
Qed.

(** No loops: the exponent n^n - 2n + 2 suffices (n >= 3). *)
Lemma primitive_bound n E m : 3 <= n -> total n E -> full n E m -> full n E (Nat.pow n n - 2 * n + 2).
Proof.
  intros Hn HT HF.
  assert (HF1 : full n E (S m)) by (apply full_S; assumption).
  destruct (short_cycle n E 0 m (HF1 0 0 ltac:(lia) ltac:(lia))) as (s & x & Hs & Hw).
  set (E' := fun a b => walk n E s a b).
  assert (HI : irreducible n E').
  { intros i j Hi Hj. exists (S m). apply power_walk. apply (full_le n E (S m)); [exact HT|nia|exact HF1|exact Hi|exact Hj]. }
  assert (Hx : x < n) by (apply (walk_bounds _ _ _ _ _ Hw)).
  assert (HF' : full n E ((2 * n - 2) * s)).
  { intros i j Hi Hj. apply walk_power. fold E'. replace (2 * n - 2) with (2 * n - length [x] - 1) by (simpl; lia).
    apply loops_exponent; [constructor; [intros []|constructor]|discriminate| |exact HI|exact Hi|exact Hj].
    intros d [<-|[]]. split; [exact Hx|exact Hw]. }
  eapply full_le; [exact HT| |exact HF'].
  assert (H3 : n * n * n <= Nat.pow n n).
  { replace (n * n * n) with (Nat.pow n 3) by (simpl; lia). apply Nat.pow_le_mono_r; lia. }
  assert ((2 * n - 2) * s <= (2 * n - 2) * n) by (apply Nat.mul_le_mono_l; lia).
  nia.
Qed.

(* ---------- positivity of powers ---------- *)
Lemma kstep_nonneg n P k : (forall i j, i < n -> j < n -> (0 <= mget P i j)%Qc) -> forall i j, i < n -> j < n -> (0 <= kstep n P k i j)%Qc.
Proof.
  intros HP. induction k as [|k IH]; intros i j Hi Hj.
  - rewrite kstep_0. unfold delta. destruct (Nat.eqb i j); qclra.
  - rewrite kstep_S. apply sumn_nonneg. intros x Hx. apply Qc_mul_nonneg; [apply HP|apply IH]; assumption.
Qed.
Lemma kstep_walk n P k : (forall i j, i < n -> j < n -> (0 <= mget P i j)%Qc) -> forall i j, i < n -> j < n ->
  (0 < kstep n P k i j)%Qc <-> walk n (edge P) k i j.
Proof.
  intros HP. induction k as [|k IH]; intros i j Hi Hj.
  - rewrite kstep_0. unfold delta. destruct (Nat.eqb_spec i j) as [->|Hne].
    + split; [intros _; constructor; exact Hj|intros _; qclra].
    + split; [intros H; exfalso; qclra|intros H; inversion H; contradiction].
  - rewrite kstep_S. split.
    + intros H. apply sumn_pos_inv in H. destruct H as (x & Hx & H).
      assert (H1 : (0 < mget P i x)%Qc). { specialize (HP i x Hi Hx). apply Qcle_lt_or_eq in HP. destruct HP as [|C]; [assumption|]. exfalso. rewrite <- C in H. qclra. }
      assert (H2 : (0 < kstep n P k x j)%Qc). { pose proof (kstep_nonneg n P k HP x j Hx Hj) as H2. apply Qcle_lt_or_eq in H2. destruct H2 as [|C]; [assumption|]. exfalso. rewrite <- C in H. qclra. }
      econstructor; [exact Hi|exact Hx|exact H1|]. apply IH; assumption.
    + intros H. inversion H as [|? ? x ? _ Hx He Hw]; subst. apply (sumn_pos n _ x Hx).
      * apply Qc_mul_pos; [exact He|]. apply IH; assumption.
      * intros y Hy. apply Qc_mul_nonneg; [apply HP; assumption|apply kstep_nonneg; assumption].
Qed.
Lemma stochastic_total n P : stochastic n P -> total n (edge P).
Proof.
  intros (HW & Hpos & Hsum) i Hi. assert (H : (0 < sumn n (fun j => mget P i j))%Qc) by (rewrite Hsum by exact Hi; qclra).
  apply sumn_pos_inv in H. destruct H as (j & Hj & H). exists j; split; assumption.
Qed.

(* ---------- C39 ---------- *)
Lemma is_regular_full n P : 0 < n -> wf n n P -> (forall i j, i < n -> j < n -> (0 <= mget P i j)%Qc) ->
  is_regular P = true <-> full n (edge P) (regular_exponent P).
Proof.
  intros Hn HW HP. unfold is_regular. pose proof (wf_mpow n P (regular_exponent P) Hn HW) as HWk. split.
  - intros H i j Hi Hj. apply kstep_walk; [exact HP|exact Hi|exact Hj|]. rewrite <- (mpow_kstep n) by assumption. apply Qcltb_lt. apply (mforall_mget _ n n _ HWk H); assumption.
  - intros H. unfold mforall. apply forallb_forall. intros row Hrow. apply forallb_forall. intros x Hx.
    apply (In_nth _ _ []) in Hrow. destruct Hrow as (i & Hi & <-). destruct HWk as [HL HR]. fold (nrows (mpow P (regular_exponent P))) in Hi.
    assert (Hin : i < n) by (rewrite <- HL; exact Hi).
    apply (In_nth _ _ 0q) in Hx. destruct Hx as (j & Hj & <-).
    assert (Hjn : j < n) by (rewrite <- (HR (nth i (mpow P (regular_exponent P)) [])); [exact Hj|apply nth_In; exact Hi]).
    change (nth j (nth i (mpow P (regular_exponent P)) []) 0q) with (mget (mpow P (regular_exponent P)) i j).
    rewrite (mpow_kstep n) by assumption. assert (G : (0 < kstep n P (regular_exponent P) i j)%Qc) by (apply kstep_walk; auto).
    destruct (Qcltb 0 (kstep n P (regular_exponent P) i j)) eqn:El; [reflexivity|]. apply Qcltb_ge in El. exfalso. qclra.
Qed.
Lemma regular_full n P : (forall i j, i < n -> j < n -> (0 <= mget P i j)%Qc) -> regular n P <-> exists m, full n (edge P) m.
Proof.
  intros HP. unfold regular. split; intros [m H]; exists m; intros i j Hi Hj; apply (kstep_walk n P m HP i j Hi Hj); apply H; assumption.
Qed.
Lemma is_regular_spec n P : 2 <= n -> stochastic n P -> is_regular P = true <-> regular n P.
Proof.
  intros Hn HS. pose proof HS as (HW & Hpos & Hsum). rewrite (is_regular_full n P) by (try lia; assumption). rewrite (regular_full n P Hpos).
  split; [intros H; eexists; exact H|]. intros [m Hm]. pose proof (stochastic_total n P HS) as HT.
  assert (Hr : nrows P = n) by apply HW. unfold regular_exponent. rewrite Hr. unfold count_nonzero_diag. rewrite Hr.
  set (D := filter (fun i => negb (Qceqb (mget P i i) 0)) (seq 0 n)).
  assert (HD : forall d, In d D <-> d < n /\ edge P d d).
  { intros d. unfold D. rewrite filter_In, in_seq, negb_true_iff. split.
    - intros [Hd Hne]. assert (Hdn : d < n) by lia. split; [exact Hdn|]. unfold edge. specialize (Hpos d d Hdn Hdn). apply Qcle_lt_or_eq in Hpos. destruct Hpos as [|C]; [assumption|].
      exfalso. apply Qceqb_neq in Hne. congruence.
    - intros [Hd He]. split; [lia|]. destruct (Qceqb (mget P d d) 0) eqn:Ee; [|reflexivity]. apply Qceqb_eq in Ee. unfold edge in He. rewrite Ee in He. exfalso. qclra. }
  destruct (Nat.ltb_spec 0 (length D)) as [HL|HL].
  - intros i j Hi Hj. apply loops_exponent; [apply NoDup_filter, seq_NoDup|intros C; rewrite C in HL; simpl in HL; lia|intros d Hd; apply HD; exact Hd| |exact Hi|exact Hj].
    intros a b Ha Hb. exists m. apply Hm; assumption.
  - destruct (Nat.eq_dec n 2) as [->|Hn2]; [|apply (primitive_bound n (edge P) m); [lia|exact HT|exact Hm]].
    exfalso. assert (HD0 : forall d, d < 2 -> ~ edge P d d).
    { intros d Hd He. assert (Hin : In d D) by (apply HD; split; assumption). destruct D; [destruct Hin|simpl in HL; lia]. }
    (* zero diagonal on two states: every walk alternates *)
    assert (Halt : forall k i j, walk 2 (edge P) k i j -> (i + k) mod 2 = j mod 2).
    { intros k i j Hw. induction Hw as [i Hi|k i j l Hi Hj He Hw IH]; [f_equal; lia|]. rewrite <- IH.
      destruct i as [|[|i]]; [| |lia]; (destruct j as [|[|j]]; [| |lia]); try (exfalso; eapply HD0; [|exact He]; lia).
      - f_equal; lia.
      - replace (1 + S k) with (k + 1 * 2) by lia. rewrite Nat.mod_add by lia. reflexivity. }
    pose proof (Halt _ _ _ (Hm 0 0 ltac:(lia) ltac:(lia))) as A0. pose proof (Halt _ _ _ (Hm 0 1 ltac:(lia) ltac:(lia))) as A1.
    rewrite A0 in A1. simpl in A1. discriminate.
Qed.

(* ---------- C30: accessibility ---------- *)
Lemma zsum_ext n f g : (forall i, i < n -> f i = g i) -> zsum n f = zsum n g.
Proof.
  intros H. unfold zsum. assert (G : forall i, In i (seq 0 n) -> f i = g i) by (intros i Hi; apply in_seq in Hi; apply H; lia).
  clear H. induction (seq 0 n) as [|x l IH]; simpl; [reflexivity|]. rewrite G by (left; reflexivity). rewrite IH; [reflexivity|]. intros; apply G; right; assumption.
Qed.
Lemma zsum_S n f : zsum (S n) f = (zsum n f + f n)%Z.
Proof.
  unfold zsum. rewrite seq_S. simpl. generalize (seq 0 n). clear. induction l as [|x l IH]; simpl; [lia|]. rewrite IH. lia.
Qed.
Lemma zsum_le n f g : (forall i, i < n -> (f i <= g i)%Z) -> (zsum n f <= zsum n g)%Z.
Proof. intros H. induction n; [reflexivity|]. rewrite !zsum_S. specialize (IHn (fun i Hi => H i (Nat.lt_lt_succ_r _ _ Hi))). specialize (H n ltac:(lia)). lia. Qed.
Lemma zsum_const n c : zsum n (fun _ => c) = (Z.of_nat n * c)%Z.
Proof. induction n; [reflexivity|]. rewrite zsum_S, IHn. lia. Qed.
Lemma zsum_nonneg n f : (forall i, i < n -> (0 <= f i)%Z) -> (0 <= zsum n f)%Z.
Proof. intros H. pose proof (zsum_le n (fun _ => 0%Z) f H). rewrite zsum_const in H0. lia. Qed.
Lemma zsum_plus n f g : zsum n (fun i => f i + g i)%Z = (zsum n f + zsum n g)%Z.
Proof. induction n; [reflexivity|]. rewrite !zsum_S, IHn. lia. Qed.
Lemma zsum_mul n c f : zsum n (fun i => f i * c)%Z = (zsum n f * c)%Z.
Proof. induction n; [reflexivity|]. rewrite !zsum_S, IHn. lia. Qed.
Lemma zsum_delta n k f : k < n -> zsum n (fun i => if Nat.eqb i k then f i else 0%Z) = f k.
Proof.
  intros Hk. induction n; [lia|]. rewrite zsum_S. destruct (Nat.eq_dec k n) as [->|Hne].
  - rewrite Nat.eqb_refl. rewrite (zsum_ext n _ (fun _ => 0%Z)); [rewrite zsum_const; lia|]. intros i Hi. destruct (Nat.eqb_spec i n); [lia|reflexivity].
  - rewrite IHn by lia. destruct (Nat.eqb_spec n k); [lia|]. lia.
Qed.
Lemma zsum_pos_iff n f : (forall i, i < n -> (0 <= f i)%Z) -> (0 < zsum n f)%Z <-> exists i, i < n /\ (0 < f i)%Z.
Proof.
  intros H. induction n as [|n IH]; [unfold zsum; simpl; split; [lia|intros (i & Hi & _); lia]|]. rewrite zsum_S.
  assert (H' : forall i, i < n -> (0 <= f i)%Z) by (intros; apply H; lia). specialize (IH H'). pose proof (zsum_nonneg n f H') as HN. pose proof (H n ltac:(lia)) as Hn. split.
  - intros HP. destruct (Z.eq_dec (f n) 0) as [e|ne].
    + destruct (proj1 IH ltac:(lia)) as (i & Hi & Hf). exists i. split; [lia|exact Hf].
    + exists n. split; [lia|lia].
  - intros (i & Hi & Hf). destruct (Nat.eq_dec i n) as [->|]; [lia|]. assert (0 < zsum n f)%Z by (apply IH; exists i; split; [lia|exact Hf]). lia.
Qed.
Lemma zget_zmk n f i j : i < n -> j < n -> zget (zmk n f) i j = f i j.
Proof. intros Hi Hj. unfold zget, zmk. rewrite !tab_nth by assumption. reflexivity. Qed.
Lemma wrap64_id z : (- 2 ^ 63 <= z < 2 ^ 63)%Z -> wrap64 z = z.
Proof. intros H. unfold wrap64. rewrite Z.mod_small; lia. Qed.

Section Acc.
Context (n : nat) (P : mat).
Definition ia (i j : nat) : Z := ((if Nat.eqb i j then 1 else 0) + (if Qcltb 0 (mget P i j) then 1 else 0))%Z.
(** Number of walks of k steps with lazy steps, without overflow. *)
Fixpoint cnt (k i j : nat) : Z :=
  match k with O => if Nat.eqb i j then 1%Z else 0%Z | S k' => zsum n (fun l => cnt k' i l * ia l j)%Z end.
Lemma ia_nonneg i j : (0 <= ia i j)%Z.
Proof. unfold ia. destruct (Nat.eqb i j), (Qcltb 0 (mget P i j)); lia. Qed.
Lemma ia_pos i j : (0 < ia i j)%Z <-> i = j \/ edge P i j.
Proof.
  unfold ia, edge. destruct (Nat.eqb_spec i j), (Qcltb 0 (mget P i j)) eqn:El; split; intros H; try lia; try (left; assumption).
  - right. apply Qcltb_lt; exact El.
  - destruct H as [|H]; [contradiction|]. apply Qcltb_ge in El. exfalso. qclra.
Qed.
Lemma cnt_nonneg k i j : (0 <= cnt k i j)%Z.
Proof. revert j. induction k as [|k IH]; intros j; simpl; [destruct (Nat.eqb i j); lia|]. apply zsum_nonneg. intros l _. pose proof (IH l). pose proof (ia_nonneg l j). nia. Qed.
Lemma walk_snoc k i j x : walk n (edge P) k i j -> x < n -> edge P j x -> walk n (edge P) (S k) i x.
Proof. intros H Hx He. rewrite <- Nat.add_1_r. eapply walk_app; [exact H|]. econstructor; [apply (walk_bounds _ _ _ _ _ H)|exact Hx|exact He|constructor; exact Hx]. Qed.
Lemma cnt_pos k i j : i < n -> j < n -> (0 < cnt k i j)%Z <-> exists m, m <= k /\ walk n (edge P) m i j.
Proof.
  intros Hi. revert j. induction k as [|k IH]; intros j Hj; simpl.
  - destruct (Nat.eqb_spec i j) as [->|Hne]; split.
    + intros _. exists 0. split; [lia|constructor; exact Hj].
    + intros _. lia.
    + lia.
    + intros (m & Hm & Hw). assert (m = 0) by lia. subst. inversion Hw. contradiction.
  - rewrite zsum_pos_iff by (intros l _; pose proof (cnt_nonneg k i l); pose proof (ia_nonneg l j); nia). split.
    + intros (l & Hl & Hpos). assert (H1 : (0 < cnt k i l)%Z) by (pose proof (cnt_nonneg k i l); pose proof (ia_nonneg l j); nia).
      assert (H2 : (0 < ia l j)%Z) by (pose proof (ia_nonneg l j); nia). apply IH in H1; [|exact Hl]. apply ia_pos in H2. destruct H1 as (m & Hm & Hw).
      destruct H2 as [->|He]; [exists m; split; [lia|exact Hw]|]. exists (S m). split; [lia|]. eapply walk_snoc; eassumption.
    + intros (m & Hm & Hw). destruct (Nat.eq_dec m (S k)) as [->|Hne].
      * rewrite <- Nat.add_1_r in Hw. apply walk_split in Hw. destruct Hw as (l & Hw1 & Hw2). inversion Hw2; subst. inversion H3; subst.
        assert (Hln : l < n) by assumption. exists l. split; [exact Hln|]. assert ((0 < cnt k i l)%Z) by (apply IH; [exact Hln|exists k; split; [lia|exact Hw1]]).
        assert ((0 < ia l j)%Z) by (apply ia_pos; right; assumption). nia.
      * exists j. split; [exact Hj|]. assert ((0 < cnt k i j)%Z) by (apply IH; [exact Hj|exists m; split; [lia|exact Hw]]). assert ((0 < ia j j)%Z) by (apply ia_pos; left; reflexivity). nia.
Qed.
Hypothesis HW : wf n n P.
Hypothesis Hcnt : forall k i j, k <= n - 1 -> i < n -> j < n -> (cnt k i j < 2 ^ 63)%Z.
Lemma zpow_cnt k : k <= n - 1 -> forall i j, i < n -> j < n ->
  zget (zpow64 n (zmk n (fun i j => wrap64 ((if Nat.eqb i j then 1 else 0) + zget (adjacency_matrix P) i j))) k) i j = cnt k i j.
Proof.
  assert (Hr : nrows P = n) by apply HW.
  induction k as [|k IH]; intros Hk i j Hi Hj; cbn [zpow64 cnt].
  - rewrite zget_zmk by assumption. reflexivity.
  - unfold zmul64. rewrite zget_zmk by assumption.
    rewrite (zsum_ext n _ (fun l => cnt k i l * ia l j)%Z).
    + apply wrap64_id. pose proof (cnt_nonneg (S k) i j) as H0. pose proof (Hcnt (S k) i j Hk Hi Hj) as H1. cbn [cnt] in H0, H1. lia.
    + intros l Hl. rewrite IH by (try lia; assumption). f_equal. rewrite zget_zmk by assumption. unfold adjacency_matrix. rewrite Hr, zget_zmk by assumption.
      fold (ia l j). apply wrap64_id. unfold ia. destruct (Nat.eqb l j), (Qcltb 0 (mget P l j)); lia.
Qed.
Lemma accessibility_get i j : i < n -> j < n ->
  (zget (accessibility_matrix P) i j = 1%Z /\ reach n (edge P) i j) \/ (zget (accessibility_matrix P) i j = 0%Z /\ ~ reach n (edge P) i j).
Proof.
  intros Hi Hj. assert (Hr : nrows P = n) by apply HW. unfold accessibility_matrix. rewrite Hr, zget_zmk by assumption.
  rewrite zpow_cnt by (try lia; assumption).
  destruct (Z.ltb_spec 0 (cnt (n - 1) i j)) as [HL|HL].
  - left. split; [reflexivity|]. apply cnt_pos in HL; [|assumption|assumption]. destruct HL as (m & _ & Hw). exists m; exact Hw.
  - right. split; [reflexivity|]. intros Hre. apply short_reach in Hre. destruct Hre as (m & Hw & Hm).
    assert ((0 < cnt (n - 1) i j)%Z) by (apply cnt_pos; [assumption|assumption|exists m; split; [lia|exact Hw]]). lia.
Qed.
End Acc.

(** Bounds excluding overflow. *)
Fixpoint cbound (n : Z) (k : nat) : Z := match k with O => 0%Z | S k' => (1 + (n + 1) * cbound n k')%Z end.
Lemma cbound_nonneg n k : (0 <= n)%Z -> (0 <= cbound n k)%Z.
Proof. intros H. induction k; cbn [cbound]; nia. Qed.
Lemma cnt_cbound n P k i j : i < n -> j < n -> (cnt n P k i j <= (if Nat.eqb i j then 1 else 0) + cbound (Z.of_nat n) k)%Z.
Proof.
  intros Hi. revert j. induction k as [|k IH]; intros j Hj; cbn [cnt cbound]; [lia|].
  set (c := cbound (Z.of_nat n) k). fold c in IH. assert (Hc : (0 <= c)%Z) by (apply cbound_nonneg; lia).
  assert (L : (zsum n (fun l => cnt n P k i l * ia P l j) <= zsum n (fun l => ((if Nat.eqb l i then 1 else 0) + c) * ((if Nat.eqb l j then 1 else 0) + 1)))%Z).
  { apply zsum_le. intros l Hl. specialize (IH l Hl). pose proof (cnt_nonneg n P k i l). pose proof (ia_nonneg P l j).
    assert (ia P l j <= (if Nat.eqb l j then 1 else 0) + 1)%Z by (unfold ia; destruct (Nat.eqb l j), (Qcltb 0 (mget P l j)); lia).
    rewrite (Nat.eqb_sym l i). apply Z.mul_le_mono_nonneg; lia. }
  etransitivity; [exact L|].
  rewrite (zsum_ext n _ (fun l => ((if Nat.eqb l i then (if Nat.eqb l j then 1 else 0) else 0) + (if Nat.eqb l i then 1 else 0)) + ((if Nat.eqb l j then c else 0) + c))%Z).
  - rewrite !zsum_plus. rewrite (zsum_delta n i (fun l => if Nat.eqb l j then 1%Z else 0%Z)), (zsum_delta n i (fun _ => 1%Z)), (zsum_delta n j (fun _ => c)), zsum_const by assumption. lia.
  - intros l Hl. destruct (Nat.eqb l i), (Nat.eqb l j); lia.
Qed.
Lemma cbound_mono n k k' : (0 <= n)%Z -> k <= k' -> (cbound n k <= cbound n k')%Z.
Proof. intros Hn H. induction H; [reflexivity|]. cbn [cbound]. pose proof (cbound_nonneg n m Hn). nia. Qed.
Lemma small_no_overflow n P k i j : n <= 17 -> k <= n - 1 -> i < n -> j < n -> (cnt n P k i j < 2 ^ 63)%Z.
Proof.
  intros Hn Hk Hi Hj. pose proof (cnt_cbound n P k i j Hi Hj) as H. pose proof (cbound_mono (Z.of_nat n) k (n - 1) ltac:(lia) Hk) as H2.
  assert (B : (cbound (Z.of_nat n) (n - 1) + 1 < 2 ^ 63)%Z).
  { clear - Hn Hi. assert (C : n = 0 \/ n = 1 \/ n = 2 \/ n = 3 \/ n = 4 \/ n = 5 \/ n = 6 \/ n = 7 \/ n = 8 \/ n = 9 \/ n = 10 \/ n = 11 \/ n = 12 \/ n = 13 \/ n = 14 \/ n = 15 \/ n = 16 \/ n = 17) by lia.
    repeat (destruct C as [->|C]; [vm_compute; reflexivity|]). subst. vm_compute. reflexivity. }
  destruct (Nat.eqb i j); lia.
Qed.
(** Sparse chains: at most d positive transitions per row. *)
Definition outdeg (n : nat) (P : mat) (i : nat) : nat := length (filter (fun j => Qcltb 0 (mget P i j)) (seq 0 n)).
Lemma zsum_count n (f : nat -> bool) : zsum n (fun j => if f j then 1%Z else 0%Z) = Z.of_nat (length (filter f (seq 0 n))).
Proof. induction n; [reflexivity|]. rewrite zsum_S, seq_S, filter_app, app_length, IHn. simpl. destruct (f n); simpl; lia. Qed.
Lemma zsum_swap n m f : zsum n (fun i => zsum m (fun j => f i j)) = zsum m (fun j => zsum n (fun i => f i j)).
Proof.
  induction n; [unfold zsum at 1; simpl; symmetry; rewrite (zsum_ext m _ (fun _ => 0%Z)); [rewrite zsum_const; lia|reflexivity]|].
  rewrite zsum_S, IHn, <- zsum_plus. apply zsum_ext. intros j Hj. rewrite zsum_S. reflexivity.
Qed.
Lemma cnt_sparse n P d k i j : (forall i, i < n -> outdeg n P i <= d) -> i < n -> j < n -> (cnt n P k i j <= (Z.of_nat d + 1) ^ Z.of_nat k)%Z.
Proof.
  intros Hd Hi Hj.
  assert (G : (zsum n (cnt n P k i) <= (Z.of_nat d + 1) ^ Z.of_nat k)%Z).
  { clear j Hj. induction k as [|k IH].
    - simpl. rewrite (zsum_ext n _ (fun j => if Nat.eqb j i then (fun _ => 1%Z) j else 0%Z)); [rewrite zsum_delta by exact Hi; lia|]. intros j _. rewrite Nat.eqb_sym. reflexivity.
    - cbn [cnt]. change (zsum n (fun j => zsum n (fun l => cnt n P k i l * ia P l j)%Z) <= (Z.of_nat d + 1) ^ Z.of_nat (S k))%Z. rewrite zsum_swap.
      transitivity (zsum n (fun l => cnt n P k i l * (Z.of_nat d + 1))%Z).
      + apply zsum_le. intros l Hl. rewrite (zsum_ext n _ (fun j => ia P l j * cnt n P k i l)%Z) by (intros; ring). rewrite zsum_mul.
        pose proof (cnt_nonneg n P k i l). assert (zsum n (ia P l) <= Z.of_nat d + 1)%Z; [|change (fun i0 => ia P l i0) with (ia P l); nia].
        rewrite (zsum_ext n _ (fun j => (if Nat.eqb j l then (fun _ => 1%Z) j else 0) + (if Qcltb 0 (mget P l j) then 1 else 0))%Z) by (intros; unfold ia; rewrite Nat.eqb_sym; reflexivity).
        rewrite zsum_plus, zsum_delta by exact Hl. rewrite (zsum_count n (fun j => Qcltb 0 (mget P l j))). specialize (Hd l Hl). unfold outdeg in Hd. lia.
      + rewrite zsum_mul, Nat2Z.inj_succ, Z.pow_succ_r by lia. change (fun i0 => cnt n P k i i0) with (cnt n P k i). pose proof (zsum_nonneg n (cnt n P k i) (fun l _ => cnt_nonneg n P k i l)). nia. }
  etransitivity; [|exact G]. 
  transitivity (zsum n (fun l => if Nat.eqb l j then cnt n P k i l else 0%Z)); [rewrite zsum_delta by exact Hj; reflexivity|]. apply zsum_le. intros l _. pose proof (cnt_nonneg n P k i l). destruct (Nat.eqb l j); lia.
Qed.

Lemma access_bool n P : wf n n P -> (forall k i j, k <= n - 1 -> i < n -> j < n -> (cnt n P k i j < 2 ^ 63)%Z) ->
  forall i j, i < n -> j < n -> is_accessible P j i = true <-> reach n (edge P) i j.
Proof.
  intros HW HC i j Hi Hj. unfold is_accessible. rewrite negb_true_iff, Z.eqb_neq.
  destruct (accessibility_get n P HW HC i j Hi Hj) as [[-> H]|[-> H]]; split; intros; try assumption; try congruence; try contradiction; lia.
Qed.
Lemma communicating_bool n P : wf n n P -> (forall k i j, k <= n - 1 -> i < n -> j < n -> (cnt n P k i j < 2 ^ 63)%Z) ->
  forall i j, i < n -> j < n -> are_communicating P i j = true <-> mutual n (edge P) i j.
Proof.
  intros HW HC i j Hi Hj. change (are_communicating P i j) with (is_accessible P j i && is_accessible P i j).
  rewrite andb_true_iff, !(access_bool n P HW HC) by assumption. reflexivity.
Qed.
(** The uniform chain on 18 states. *)
Definition uniform18 : mat := mk 18 18 (fun _ _ => (1 / Q2Qc (18 # 1))%Qc).
Lemma uniform18_overflow : stochastic 18 uniform18 /\ edge uniform18 0 1 /\ is_accessible uniform18 1 0 = false.
Proof.
  split; [|split; [|vm_compute; reflexivity]].
  - split; [apply wf_mk|]. split.
    + intros i j Hi Hj. unfold uniform18. rewrite mget_mk by assumption. vm_compute. discriminate.
    + intros i Hi. rewrite (sumn_ext 18 _ (fun _ => (1 / Q2Qc (18 # 1))%Qc)) by (intros j Hj; unfold uniform18; apply mget_mk; assumption). apply Qc_is_canon. vm_compute. reflexivity.
  - unfold edge, uniform18. rewrite mget_mk by lia. vm_compute. reflexivity.
Qed.
