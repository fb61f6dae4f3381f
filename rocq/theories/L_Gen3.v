(** L_Gen3: derived chains (merge, lazy, bounded, n-th order) and random chains. *)
From Verif Require Import S_Gen M_Generators S_Gen2 L_Gen1 L_Gen2.

Lemma valid_size n c : valid_chain n c -> ch_size c = n.
Proof. intros (H & (W & _) & _). exact (wf_nrows _ _ _ W). Qed.

(** * merge_with *)
Lemma merge_with_ok c d g r : merge_with c d g = Ok r ->
  ch_size d = ch_size c /\ (0 < g)%Qc /\ (g < 1)%Qc.
Proof.
  unfold merge_with. destruct (Nat.eqb_spec (ch_size d) (ch_size c)) as [E|]; [|discriminate].
  destruct (Qcltb_spec 0 g) as [G|]; [|discriminate]. destruct (Qcltb_spec g 1) as [G2|]; [|discriminate]. auto.
Qed.
Lemma merge_with_spec n c d g r : valid_chain n c -> valid_chain n d -> merge_with c d g = Ok r ->
  (0 < g)%Qc /\ (g < 1)%Qc /\ valid_chain n r /\ ch_states r = map (fun k => String.append "M" (dec k)) (seq 1 n) /\
  forall i j, i < n -> j < n -> mget (ch_p r) i j = ((1 - g) * mget (ch_p c) i j + g * mget (ch_p d) i j)%Qc.
Proof.
  intros Vc Vd H. assert (K := H). apply merge_with_ok in K. destruct K as (S & G0 & G1).
  unfold merge_with in H. rewrite S, Nat.eqb_refl in H.
  rewrite (proj2 (Qcltb_lt 0 g) G0), (proj2 (Qcltb_lt g 1) G1) in H. cbn [andb] in H.
  rewrite (valid_size n c Vc) in H. inversion H; subst r; clear H. cbn [ch_p ch_states].
  destruct Vc as (N & (W & P & R) & _). destruct Vd as (_ & (W' & P' & R') & _).
  split; [exact G0|]. split; [exact G1|].
  assert (M : forall i j, i < n -> j < n ->
    mget (mk n n (fun i j => ((1 - g) * mget (ch_p c) i j + g * mget (ch_p d) i j)%Qc)) i j
      = ((1 - g) * mget (ch_p c) i j + g * mget (ch_p d) i j)%Qc) by (intros; apply mget_mk; assumption).
  split; [|split; [reflexivity|exact M]].
  split; [exact N|]. split; [|apply create_labels_ok]. cbn [ch_p]. split; [apply wf_mk|]. split.
  - intros i j Hi Hj. rewrite M by assumption. assert (A := P i j Hi Hj). assert (B := P' i j Hi Hj).
    assert (X : (0 <= (1 - g) * mget (ch_p c) i j)%Qc) by (apply Qc_mul_nonneg; [qclra|exact A]).
    assert (Y : (0 <= g * mget (ch_p d) i j)%Qc) by (apply Qc_mul_nonneg; [qclra|exact B]). qclra.
  - intros i Hi. etransitivity; [exact (sumn_ext n _ _ (fun j Hj => M i j Hi Hj))|].
    rewrite sumn_plus, !sumn_mul_l, R, R' by assumption. ring.
Qed.
Lemma merge_with_total n c d g : valid_chain n c -> valid_chain n d -> (0 < g)%Qc -> (g < 1)%Qc ->
  exists r, merge_with c d g = Ok r.
Proof.
  intros Vc Vd G0 G1. unfold merge_with. rewrite (valid_size n c Vc), (valid_size n d Vd), Nat.eqb_refl.
  rewrite (proj2 (Qcltb_lt 0 g) G0), (proj2 (Qcltb_lt g 1) G1). eexists; reflexivity.
Qed.

(** * to_lazy_chain *)

Lemma lazy_vec n c w r : valid_chain n c -> to_lazy_chain c w = Ok r ->
  weights_ok n w /\ exists v, length v = n /\ (forall i, i < n -> vget v i = weight_at w i) /\ r = mkchain (mc_lazy (ch_p c) v) (ch_states c).
Proof.
  intros V. unfold to_lazy_chain. rewrite (valid_size n c V). destruct V as (N & _). destruct w as [x|v].
  - destruct (forallb in01 (repeat x n)) eqn:F; [|discriminate]. cbn [bind]. intros H; inversion H; subst.
    split.
    + apply in01_true. rewrite forallb_forall in F. apply F. destruct n; [lia|left; reflexivity].
    + exists (repeat x n). split; [apply repeat_length|]. split; [|reflexivity].
      intros i Hi. cbn. unfold vget. revert i Hi. clear. induction n as [|n IH]; intros i Hi; [lia|].
      destruct i; [reflexivity|]. apply IH; lia.
  - destruct (validate_vector v Unconstrained (Some n)) as [v'|] eqn:E; [|discriminate]. cbn [bind].
    intros H; inversion H; subst. unfold validate_vector in E.
    destruct (Nat.eqb (length v) 0); [discriminate|]. cbn [negb] in E.
    destruct (Nat.eqb_spec (length v) n) as [L|]; [|discriminate].
    destruct (forallb in01 v) eqn:F; [|discriminate]. inversion E; subst v'.
    split; [|exists v; auto]. split; [exact L|]. intros i Hi. apply in01_true. rewrite forallb_forall in F.
    apply F. apply nth_In. lia.
Qed.

Lemma mget_lazy n p v i j : wf n n p -> i < n -> j < n ->
  mget (mc_lazy p v) i j = ((1 - vget v i) * mget p i j + delta i j * vget v i)%Qc.
Proof.
  intros W Hi Hj. unfold mc_lazy. rewrite (wf_nrows _ _ _ W), mget_mk by assumption. unfold delta.
  destruct (Nat.eqb_spec i j); [subst; reflexivity|]. ring.
Qed.

Lemma to_lazy_chain_spec n c w r : valid_chain n c -> to_lazy_chain c w = Ok r ->
  weights_ok n w /\ valid_chain n r /\ ch_states r = ch_states c /\
  (forall i j, i < n -> j < n ->
     mget (ch_p r) i j = ((1 - weight_at w i) * mget (ch_p c) i j + (if Nat.eqb i j then weight_at w i else 0))%Qc).
Proof.
  intros V H. destruct (lazy_vec n c w r V H) as (Wt & v & L & Hv & ->). cbn [ch_p ch_states].
  destruct V as (N & (W & P & R) & NM).
  assert (B : forall i, i < n -> (0 <= vget v i <= 1)%Qc).
  { intros i Hi. rewrite Hv by exact Hi. destruct w; cbn in *; [exact Wt|]. apply Wt; exact Hi. }
  assert (LZ := fun i j => mget_lazy n (ch_p c) v i j W).
  split; [exact Wt|]. split; [|split; [reflexivity|]].
  - split; [exact N|]. split; [|exact NM]. split.
    + unfold mc_lazy. cbn [ch_p]. rewrite (wf_nrows _ _ _ W). apply wf_mk.
    + split.
      * intros i j Hi Hj. cbn [ch_p]. rewrite LZ by assumption. destruct (B i Hi).
        assert (X : (0 <= (1 - vget v i) * mget (ch_p c) i j)%Qc) by (apply Qc_mul_nonneg; [qclra|auto]).
        assert (Y : (0 <= delta i j * vget v i)%Qc) by (apply Qc_mul_nonneg; [apply delta_nonneg|assumption]). qclra.
      * intros i Hi. cbn [ch_p]. etransitivity; [exact (sumn_ext n _ _ (fun j Hj => LZ i j Hi Hj))|].
        rewrite sumn_plus, sumn_mul_l, R, sumn_delta_c by assumption. ring.
  - intros i j Hi Hj. rewrite LZ, Hv by assumption. unfold delta. destruct (Nat.eqb i j); ring.
Qed.

Lemma to_lazy_chain_total n c w : valid_chain n c -> weights_ok n w -> exists r, to_lazy_chain c w = Ok r.
Proof.
  intros V H. unfold to_lazy_chain. rewrite (valid_size n c V). destruct V as (N & _). destruct w as [x|v]; cbn in H.
  - assert (F : forallb in01 (repeat x n) = true).
    { apply forallb_forall. intros y Hy. apply repeat_spec in Hy. subst. apply in01_true; exact H. }
    rewrite F. eexists; reflexivity.
  - destruct H as [L B]. unfold validate_vector. destruct (Nat.eqb_spec (length v) 0); [lia|]. cbn [negb].
    rewrite L, Nat.eqb_refl.
    assert (F : forallb in01 v = true).
    { apply forallb_forall. intros y Hy. apply In_nth with (d := 0q) in Hy. destruct Hy as (i & Hi & <-).
      apply in01_true. apply B. lia. }
    rewrite F. eexists; reflexivity.
Qed.

Lemma lazy_stationary n c x r v : valid_chain n c -> to_lazy_chain c (WScalar x) = Ok r -> (x < 1)%Qc ->
  (stationary n (ch_p r) v <-> stationary n (ch_p c) v).
Proof.
  intros V H Hx. destruct (to_lazy_chain_spec n c _ r V H) as (_ & _ & _ & M). cbn [weight_at] in M.
  unfold stationary.
  assert (E : forall j, j < n -> sumn n (fun i => vget v i * mget (ch_p r) i j)%Qc
     = ((1 - x) * sumn n (fun i => vget v i * mget (ch_p c) i j) + x * vget v j)%Qc).
  { intros j Hj. rewrite (sumn_ext n _ (fun i => (1 - x) * (vget v i * mget (ch_p c) i j) + (x * vget v i) * delta i j)%Qc).
    - rewrite sumn_plus, sumn_mul_l, sumn_delta_r by exact Hj. reflexivity.
    - intros i Hi. rewrite M by assumption. unfold delta. destruct (Nat.eqb i j); ring. }
  assert (NZ : (1 - x)%Qc <> 0q) by (apply Qc_lt_neq; qclra).
  split; intros (L & S); (split; [exact L|]); intros j Hj; specialize (S j Hj).
  - rewrite E in S by exact Hj. apply (Qc_mul_cancel_r _ _ (1 - x)%Qc NZ).
    set (s := sumn n (fun i => vget v i * mget (ch_p c) i j)%Qc) in *.
    replace (s * (1 - x))%Qc with ((1 - x) * s + x * vget v j - x * vget v j)%Qc by ring. rewrite S. ring.
  - rewrite E by exact Hj. rewrite S. ring.
Qed.

(** * to_bounded_chain *)
Definition bounded_first (b : bcond) : Qc * Qc :=
  match b with BNumber x => (1 - x, x)%Qc | BAbsorbing => (1q, 0q) | BReflecting => (0q, 1q) end.
Definition bounded_last (b : bcond) : Qc * Qc :=
  match b with BNumber x => (1 - x, x)%Qc | BAbsorbing => (0q, 1q) | BReflecting => (1q, 0q) end.

Lemma bounded_cells n p b i j : 2 <= n -> wf n n p -> i < n -> j < n ->
  mget (mc_bounded p b) i j =
    if Nat.eqb i (n - 1) then
      if Nat.eqb j (n - 2) then fst (bounded_last b) else if Nat.eqb j (n - 1) then snd (bounded_last b) else 0q
    else if Nat.eqb i 0 then
      if Nat.eqb j 0 then fst (bounded_first b) else if Nat.eqb j 1 then snd (bounded_first b) else 0q
    else mget p i j.
Proof.
  intros N W Hi Hj. unfold mc_bounded. rewrite (wf_nrows _ _ _ W), mget_mk by assumption.
  destruct (Nat.eqb_spec i (n - 1)).
  - destruct b; cbn [bounded_last fst snd]; destruct (Nat.eqb_spec j (n - 2)); destruct (Nat.eqb_spec j (n - 1)); try reflexivity; lia.
  - destruct (Nat.eqb_spec i 0); [|reflexivity].
    destruct b; cbn [bounded_first fst snd]; destruct (Nat.eqb_spec j 0); destruct (Nat.eqb_spec j 1); try reflexivity; lia.
Qed.

Lemma sumn_two n a b x y : a < n -> b < n -> a <> b ->
  sumn n (fun j => if Nat.eqb j a then x else if Nat.eqb j b then y else 0q) = (x + y)%Qc.
Proof.
  intros Ha Hb Hab. rewrite (sumn_ext n _ (fun j => delta a j * x + delta b j * y)%Qc).
  - rewrite sumn_plus, !sumn_delta_c by assumption. reflexivity.
  - intros j _. unfold delta. rewrite (Nat.eqb_sym a j), (Nat.eqb_sym b j).
    destruct (Nat.eqb_spec j a); destruct (Nat.eqb_spec j b); try ring. lia.
Qed.

Lemma to_bounded_chain_spec n c b r : valid_chain n c -> to_bounded_chain c b = Ok r ->
  (forall x, b = BNumber x -> (0 <= x <= 1)%Qc) /\ valid_chain n r /\ ch_states r = ch_states c /\
  (forall i j, 0 < i -> i < n - 1 -> j < n -> mget (ch_p r) i j = mget (ch_p c) i j) /\
  (forall j, j < n -> mget (ch_p r) 0 j =
     (match b with
     | BNumber x => if Nat.eqb j 0 then 1 - x else if Nat.eqb j 1 then x else 0
     | BAbsorbing => if Nat.eqb j 0 then 1 else 0
     | BReflecting => if Nat.eqb j 1 then 1 else 0
     end)%Qc) /\
  (forall j, j < n -> mget (ch_p r) (n - 1) j =
     (match b with
     | BNumber x => if Nat.eqb j (n - 2)%nat then 1 - x else if Nat.eqb j (n - 1)%nat then x else 0
     | BAbsorbing => if Nat.eqb j (n - 1)%nat then 1 else 0
     | BReflecting => if Nat.eqb j (n - 2)%nat then 1 else 0
     end)%Qc).
Proof.
  intros V. unfold to_bounded_chain. destruct (match b with BNumber x => _ | _ => true end) eqn:G; [|discriminate].
  intros H; inversion H; subst r; clear H. cbn [ch_p ch_states].
  assert (GB : forall x, b = BNumber x -> (0 <= x <= 1)%Qc).
  { intros x ->. apply negb_true_iff, orb_false_iff in G. destruct G as [G1 G2].
    apply Qcltb_ge in G1, G2. split; assumption. }
  destruct V as (N & (W & P & R) & NM).
  assert (C := fun i j => bounded_cells n (ch_p c) b i j N W).
  split; [exact GB|]. split; [|split; [reflexivity|split; [|split]]].
  - split; [exact N|]. split; [|exact NM]. cbn [ch_p]. split; [|split].
    + unfold mc_bounded. rewrite (wf_nrows _ _ _ W). apply wf_mk.
    + intros i j Hi Hj. rewrite C by assumption.
      destruct (Nat.eqb i (n - 1)); [|destruct (Nat.eqb i 0); [|apply P; assumption]].
      * destruct b as [x| |]; cbn; [destruct (GB x eq_refl)| |]; destruct (Nat.eqb j (n - 2)); try destruct (Nat.eqb j (n - 1)); try discriminate; qclra.
      * destruct b as [x| |]; cbn; [destruct (GB x eq_refl)| |]; destruct (Nat.eqb j 0); try destruct (Nat.eqb j 1); try discriminate; qclra.
    + intros i Hi. etransitivity; [exact (sumn_ext n _ _ (fun j Hj => C i j Hi Hj))|].
      destruct (Nat.eqb i (n - 1)); [|destruct (Nat.eqb i 0); [|apply R; assumption]].
      * rewrite sumn_two by lia. destruct b; cbn; ring.
      * rewrite sumn_two by lia. destruct b; cbn; ring.
  - intros i j Hi Hi2 Hj. rewrite C by lia. destruct (Nat.eqb_spec i (n - 1)); [lia|]. destruct (Nat.eqb_spec i 0); [lia|reflexivity].
  - intros j Hj. rewrite C by lia. destruct (Nat.eqb_spec 0 (n - 1)); [lia|]. cbn [Nat.eqb].
    destruct b; cbn; destruct (Nat.eqb_spec j 0); destruct (Nat.eqb_spec j 1); try reflexivity; lia.
  - intros j Hj. rewrite C by lia. rewrite Nat.eqb_refl.
    destruct b; cbn; destruct (Nat.eqb_spec j (n - 2)); destruct (Nat.eqb_spec j (n - 1)); try reflexivity; lia.
Qed.

(** * Paths and powers *)
Lemma path_end_cons i x w : path_end i (x :: w) = path_end x w.
Proof.
  unfold path_end. revert i x. induction w as [|y w IH]; intros i x; [reflexivity|].
  change (last (x :: y :: w) i) with (last (y :: w) i). rewrite (IH i y), (IH x y). reflexivity.
Qed.
Lemma prob_paths_S n P k i c :
  prob_paths n P (S k) i c = sumn n (fun x => mget P i x * prob_paths n P k x (fun w => c (x :: w)))%Qc.
Proof.
  unfold prob_paths. cbn [words]. rewrite lsum_flat_map, <- lsum_tab. unfold tab.
  apply lsum_map_ext. intros x _. rewrite map_map, <- lsum_map_mul_l. apply lsum_map_ext.
  intros w _. cbn [path_prob]. destruct (c (x :: w)); ring.
Qed.
Lemma prob_paths_ext n P k i c c' : (forall w, In w (words n k) -> c w = c' w) -> prob_paths n P k i c = prob_paths n P k i c'.
Proof. intros H. apply lsum_map_ext. intros w Hw. rewrite H by exact Hw. reflexivity. Qed.
Lemma kstep_0 n P i j : kstep n P 0 i j = delta i j.
Proof.
  unfold kstep, prob_paths, delta, path_end. simpl. destruct (Nat.eqb i j); ring.
Qed.
Lemma kstep_S n P k i j : kstep n P (S k) i j = sumn n (fun x => mget P i x * kstep n P k x j)%Qc.
Proof.
  unfold kstep. rewrite prob_paths_S. apply sumn_ext. intros x _. f_equal. apply prob_paths_ext.
  intros w _. rewrite path_end_cons. reflexivity.
Qed.
Lemma mpow_kstep n P k : 0 < n -> wf n n P -> forall i j, i < n -> j < n -> mget (mpow P k) i j = kstep n P k i j.
Proof.
  intros N W. induction k as [|k IH]; intros i j Hi Hj.
  - rewrite kstep_0. cbn [mpow]. rewrite (wf_nrows _ _ _ W). apply mget_eye; assumption.
  - rewrite (mpow_S_l n), kstep_S by assumption. rewrite (mget_mmul n n n) by (try apply wf_mpow; assumption).
    apply sumn_ext. intros x Hx. rewrite IH by assumption. reflexivity.
Qed.
Lemma mmul_stochastic n A B : 0 < n -> stochastic n A -> stochastic n B -> stochastic n (mmul A B).
Proof.
  intros N (WA & PA & RA) (WB & PB & RB). split; [apply (wf_mmul n n n); assumption|].
  split.
  - intros i j Hi Hj. rewrite (mget_mmul n n n) by assumption. apply sumn_nonneg. intros k Hk. apply Qc_mul_nonneg; auto.
  - intros i Hi. rewrite (sumn_ext n _ (fun j => sumn n (fun k => mget A i k * mget B k j)%Qc))
      by (intros; apply (mget_mmul n n n); assumption).
    rewrite sumn_swap. rewrite (sumn_ext n _ (mget A i)); [apply RA; exact Hi|].
    intros k Hk. rewrite sumn_mul_l, RB by exact Hk. ring.
Qed.
Lemma mpow_stochastic n P k : 0 < n -> stochastic n P -> stochastic n (mpow P k).
Proof.
  intros N S. induction k as [|k IH].
  - cbn [mpow]. rewrite (wf_nrows _ _ _ (proj1 S)). apply eye_stochastic; exact N.
  - rewrite (mpow_S_l n) by (try apply S; exact N). apply mmul_stochastic; assumption.
Qed.
Lemma to_nth_order_spec n c o r : valid_chain n c -> to_nth_order c o = Ok r ->
  (2 <= o)%Z /\ valid_chain n r /\ ch_states r = ch_states c /\
  forall i j, i < n -> j < n -> mget (ch_p r) i j = kstep n (ch_p c) (Z.to_nat o) i j.
Proof.
  intros (N & S & NM). unfold to_nth_order. destruct (Z.leb_spec 2 o) as [O|]; [|discriminate].
  intros H; inversion H; subst; cbn [ch_p ch_states]. split; [exact O|]. split.
  - split; [exact N|]. split; [apply mpow_stochastic; [lia|exact S]|exact NM].
  - split; [reflexivity|]. apply mpow_kstep; [lia|apply S].
Qed.

(** * random *)

Lemma cget_cmk n f i j : i < n -> j < n -> cget (cmk n f) i j = f i j.
Proof. intros Hi Hj. unfold cget, cmk. rewrite tab_nth by exact Hi. apply tab_nth; exact Hj. Qed.

Lemma list_sum_app' l1 l2 : list_sum (l1 ++ l2) = list_sum l1 + list_sum l2.
Proof. induction l1 as [|x l IH]; simpl; [reflexivity|]. rewrite IH; lia. Qed.
Lemma flat_map_length {A B} (f : A -> list B) l : length (flat_map f l) = list_sum (map (fun x => length (f x)) l).
Proof. induction l as [|x l IH]; simpl; [reflexivity|]. rewrite app_length, IH. reflexivity. Qed.

Lemma filter_split_one l (f : nat -> bool) c : NoDup l -> In c l -> f c = true ->
  length (filter f l) = S (length (filter (fun j => f j && negb (Nat.eqb j c)) l)).
Proof.
  induction l as [|x l IH]; intros HN Hin Hc; [contradiction|]. inversion HN as [|? ? Hx HN']; subst.
  destruct Hin as [->|Hin].
  - simpl. rewrite Hc, Nat.eqb_refl. cbn [andb negb length]. f_equal.
    rewrite (filter_ext_in f (fun j => f j && negb (Nat.eqb j c))); [reflexivity|].
    intros a Ha. destruct (Nat.eqb_spec a c); [subst; contradiction|]. rewrite andb_true_r. reflexivity.
  - simpl. destruct (Nat.eqb_spec x c); [subst; contradiction|]. rewrite andb_true_r.
    destruct (f x); cbn [length]; rewrite (IH HN' Hin Hc); reflexivity.
Qed.

Lemma NoDup_pairs (f : nat -> list nat) l : NoDup l -> (forall i, In i l -> NoDup (f i)) ->
  NoDup (flat_map (fun i => map (fun j => (i, j)) (f i)) l).
Proof.
  induction l as [|x l IH]; intros HN Hf; simpl; [constructor|]. inversion HN; subst.
  assert (G : forall (A B : list (nat * nat)), NoDup A -> NoDup B -> (forall z, In z A -> ~ In z B) -> NoDup (A ++ B)).
  { clear. induction A as [|a A IH]; intros B HA HB HD; simpl; [exact HB|]. inversion HA; subst. constructor.
    - rewrite in_app_iff. intros [K|K]; [contradiction|]. apply (HD a); [left; reflexivity|exact K].
    - apply IH; try assumption. intros z Hz. apply HD. right; exact Hz. }
  apply G.
  - apply NoDup_map_inj; [|apply Hf; left; reflexivity]. intros a b _ _ E. inversion E; reflexivity.
  - apply IH; [assumption|]. intros i Hi. apply Hf; right; exact Hi.
  - intros z Hz Hz2. apply in_map_iff in Hz. destruct Hz as (j & <- & _).
    apply in_flat_map in Hz2. destruct Hz2 as (y & Hy & Hy2). apply in_map_iff in Hy2. destruct Hy2 as (k & E & _).
    inversion E; subst. contradiction.
Qed.

Lemma list_prod_flat {A B} (l : list A) (l' : list B) : list_prod l l' = flat_map (fun i => map (fun j => (i, j)) l') l.
Proof. induction l as [|x l IH]; [reflexivity|]. cbn [list_prod flat_map]. rewrite IH. reflexivity. Qed.
Section Random.
Variables (n zeros : nat) (mask : list (list cell)) (pick : nat -> nat) (perm : list nat) (draw : nat -> nat -> Qc).
Hypothesis Hmask : mask_ok n mask = true.

Let full i := isclose (sumn n (fun j => cval (cget mask i j))) 1.
Let m1 := cmk n (fun i j => if is_nan (cget mask i j) && full i then CVal 0q else cget mask i j).
Let total := length (flat_map (nan_cols n m1) (seq 0 n)).
Let notfull := length (filter (fun i => negb (full i)) (seq 0 n)).
Let pcol i := nth (pick i) (nan_cols n m1 i) 0.
Let m2 := cmk n (fun i j => if negb (full i) && Nat.eqb j (pcol i) then CInf else cget m1 i j).
Let unassigned := flat_map (fun i => map (fun j => (i, j)) (nan_cols n m2 i)) (seq 0 n).
Let zero_cells := map (fun k => nth k unassigned (0, 0)) (firstn zeros perm).
Let zc i j := existsb (fun c => Nat.eqb (fst c) i && Nat.eqb (snd c) j) zero_cells.
Let m3 := cmk n (fun i j => if zc i j then CVal 0q else match cget m2 i j with CInf => CNan | c => c end).

Lemma mask_cell i j : i < n -> j < n ->
  match cget mask i j with CNan => True | CInf => False | CVal x => (0 <= x <= 1)%Qc end.
Proof. clear m3 zc zero_cells unassigned m2 pcol. clear notfull total.
  intros Hi Hj. unfold mask_ok in Hmask. apply andb_true_iff in Hmask. destruct Hmask as [H _].
  apply andb_true_iff in H. destruct H as [H H3]. apply andb_true_iff in H. destruct H as [H1 H2].
  apply Nat.eqb_eq in H1. rewrite forallb_forall in H2, H3.
  assert (I1 : In (nth i mask []) mask) by (apply nth_In; lia).
  assert (L := H2 _ I1). apply Nat.eqb_eq in L. specialize (H3 _ I1). rewrite forallb_forall in H3.
  assert (I2 : In (cget mask i j) (nth i mask [])) by (apply nth_In; lia).
  specialize (H3 _ I2). destruct (cget mask i j); [exact I|discriminate|apply in01_true; exact H3].
Qed.
Lemma mask_le1 i : i < n -> (sumn n (fun j => cval (cget mask i j)) <= 1)%Qc.
Proof. clear m3 zc zero_cells unassigned m2 pcol. clear notfull total.
  intros Hi. unfold mask_ok in Hmask. apply andb_true_iff in Hmask. destruct Hmask as [_ H].
  rewrite forallb_forall in H. apply Qcleb_le, H. apply in_seq; lia.
Qed.
Lemma mask_sum_eq i : mask_sum n (mval mask) i = sumn n (fun j => cval (cget mask i j)).
Proof. unfold mask_sum, mval. apply sumn_ext. intros j _. destruct (cget mask i j); reflexivity. Qed.
Lemma full_eq i : full i = row_complete n (mval mask) i.
Proof.
  unfold full, row_complete, isclose. rewrite mask_sum_eq. f_equal.
Qed.
Lemma nan_free i j : i < n -> j < n -> is_nan (cget mask i j) = match mval mask i j with None => true | Some _ => false end.
Proof. clear m3 zc zero_cells unassigned m2 pcol. clear notfull total. intros Hi Hj. assert (H := mask_cell i j Hi Hj). unfold mval. destruct (cget mask i j); try reflexivity. contradiction. Qed.
Lemma m1_cell i j : i < n -> j < n -> cget m1 i j = if is_nan (cget mask i j) && full i then CVal 0q else cget mask i j.
Proof. apply cget_cmk. Qed.
Lemma nan_cols1 i : i < n -> length (nan_cols n m1 i) = if full i then 0 else free_cells n (mval mask) i.
Proof. clear m3 zc zero_cells unassigned m2 pcol. clear notfull total.
  intros Hi. unfold nan_cols, free_cells. destruct (full i) eqn:F.
  - rewrite (filter_ext_in _ (fun _ => false)); [induction (seq 0 n); [reflexivity|assumption]|].
    intros j Hj. apply in_seq in Hj. rewrite m1_cell, F by lia. rewrite andb_true_r.
    destruct (is_nan (cget mask i j)) eqn:E; [reflexivity|]. exact E.
  - f_equal. apply filter_ext_in. intros j Hj. apply in_seq in Hj. rewrite m1_cell, F, andb_false_r by lia.
    apply nan_free; lia.
Qed.

Hypothesis Hfree : forall i, i < n -> full i = true \/ 0 < length (nan_cols n m1 i).
Hypothesis Hpick : forall i, i < n -> full i = false -> pick i < free_cells n (mval mask) i.

Lemma pcol_in i : i < n -> full i = false -> In (pcol i) (nan_cols n m1 i).
Proof. intros Hi F. unfold pcol. apply nth_In. rewrite nan_cols1, F by exact Hi. apply Hpick; assumption. Qed.
Lemma pcol_spec i : i < n -> full i = false -> pcol i < n /\ is_nan (cget m1 i (pcol i)) = true.
Proof.
  intros Hi F. assert (H := pcol_in i Hi F). apply filter_In in H. destruct H as [H1 H2]. apply in_seq in H1. split; [lia|exact H2].
Qed.
Lemma m2_cell i j : i < n -> j < n -> cget m2 i j = if negb (full i) && Nat.eqb j (pcol i) then CInf else cget m1 i j.
Proof. apply cget_cmk. Qed.
Lemma nan_cols2 i : i < n -> length (nan_cols n m2 i) = if full i then 0 else free_cells n (mval mask) i - 1.
Proof.
  intros Hi. assert (E := nan_cols1 i Hi). destruct (full i) eqn:F.
  - rewrite <- E. unfold nan_cols. f_equal. apply filter_ext_in. intros j Hj. apply in_seq in Hj. rewrite m2_cell, F by lia. reflexivity.
  - destruct (pcol_spec i Hi F) as [P1 P2]. unfold nan_cols in *.
    rewrite (filter_split_one _ _ (pcol i)) in E; [|apply seq_NoDup|apply in_seq; lia|exact P2].
    rewrite <- E. rewrite Nat.sub_succ, Nat.sub_0_r. f_equal. apply filter_ext_in. intros j Hj. apply in_seq in Hj.
    rewrite m2_cell, F by lia. cbn [negb andb]. destruct (Nat.eqb j (pcol i)); cbn; [rewrite andb_false_r|rewrite andb_true_r]; reflexivity.
Qed.
Lemma unassigned_length : length unassigned = zero_capacity n (mval mask).
Proof.
  unfold unassigned, zero_capacity. rewrite flat_map_length. f_equal. apply map_ext_in.
  intros i Hi. apply in_seq in Hi. rewrite map_length, nan_cols2, <- full_eq by lia. reflexivity.
Qed.
Lemma unassigned_In i j : In (i, j) unassigned <-> i < n /\ j < n /\ is_nan (cget m2 i j) = true.
Proof.
  unfold unassigned. rewrite in_flat_map. split.
  - intros (x & Hx & H). apply in_map_iff in H. destruct H as (y & E & Hy). inversion E; subst.
    apply filter_In in Hy. destruct Hy as [Hy1 Hy2]. apply in_seq in Hx, Hy1. repeat split; try lia. exact Hy2.
  - intros (Hi & Hj & H). exists i. split; [apply in_seq; lia|]. apply in_map_iff. exists j. split; [reflexivity|].
    apply filter_In. split; [apply in_seq; lia|exact H].
Qed.
Lemma unassigned_NoDup : NoDup unassigned.
Proof. apply NoDup_pairs; [apply seq_NoDup|]. intros i _. apply NoDup_filter, seq_NoDup. Qed.
Lemma total_eq : total = zero_capacity n (mval mask) + notfull.
Proof. clear m3 zc zero_cells unassigned m2 pcol.
  unfold total, notfull, zero_capacity. rewrite flat_map_length.
  assert (G : forall l, (forall i, In i l -> i < n) ->
    list_sum (map (fun x => length (nan_cols n m1 x)) l) =
    list_sum (map (fun i => if row_complete n (mval mask) i then 0 else free_cells n (mval mask) i - 1) l) + length (filter (fun i => negb (full i)) l)).
  { induction l as [|i l IH]; intros Hl; simpl; [reflexivity|].
    rewrite IH by (intros; apply Hl; right; assumption). assert (Hi := Hl i (or_introl eq_refl)).
    rewrite <- full_eq. assert (E := nan_cols1 i Hi). assert (E2 := Hfree i Hi). destruct (full i); cbn [negb length]; [lia|].
    rewrite E. destruct E2; [discriminate|]. lia. }
  apply G. intros i Hi. apply in_seq in Hi. lia.
Qed.

Hypothesis Hzeros : zeros <= zero_capacity n (mval mask).
Hypothesis Hperm : Permutation perm (seq 0 (zero_capacity n (mval mask))).

Lemma perm_lt k : In k perm -> k < length unassigned.
Proof. intros H. apply (Permutation_in _ Hperm) in H. apply in_seq in H. rewrite unassigned_length. lia. Qed.
Lemma zero_cells_In c : In c zero_cells -> In c unassigned.
Proof.
  unfold zero_cells. intros H. apply in_map_iff in H. destruct H as (k & <- & Hk). apply nth_In, perm_lt.
  rewrite <- (firstn_skipn zeros perm). apply in_or_app; left; exact Hk.
Qed.
Lemma zero_cells_NoDup : NoDup zero_cells.
Proof.
  unfold zero_cells. apply NoDup_map_inj.
  - intros a b Ha Hb E. assert (Ha' : In a perm) by (rewrite <- (firstn_skipn zeros perm); apply in_or_app; left; exact Ha).
    assert (Hb' : In b perm) by (rewrite <- (firstn_skipn zeros perm); apply in_or_app; left; exact Hb).
    apply (proj1 (NoDup_nth unassigned (0, 0)) unassigned_NoDup a b); [apply perm_lt; exact Ha'|apply perm_lt; exact Hb'|exact E].
  - assert (H : NoDup perm) by (eapply Permutation_NoDup; [apply Permutation_sym, Hperm|apply seq_NoDup]).
    rewrite <- (firstn_skipn zeros perm) in H. revert H. generalize (firstn zeros perm), (skipn zeros perm).
    induction l as [|x l IH]; intros l0 H; [constructor|]. inversion H; subst. constructor; [|eapply IH; eassumption].
    intros K. apply H2. apply in_or_app; left; exact K.
Qed.
Lemma zero_cells_length : length zero_cells = zeros.
Proof.
  unfold zero_cells. rewrite map_length, firstn_length, (Permutation_length Hperm), seq_length. lia.
Qed.
Lemma zc_In i j : zc i j = true <-> In (i, j) zero_cells.
Proof.
  unfold zc. rewrite existsb_exists. split.
  - intros ((a, b) & H & E). apply andb_true_iff in E. destruct E as [E1 E2]. apply Nat.eqb_eq in E1, E2. cbn in *. subst; exact H.
  - intros H. exists (i, j). split; [exact H|]. cbn. rewrite !Nat.eqb_refl. reflexivity.
Qed.
(* the shape of m3 *)
Lemma m3_cell i j : i < n -> j < n ->
  (is_nan (cget m3 i j) = true /\ is_nan (cget mask i j) = true /\ full i = false) \/
  (is_nan (cget m3 i j) = false /\ cget m3 i j = CVal (cval (cget mask i j))).
Proof.
  intros Hi Hj. unfold m3. rewrite cget_cmk by assumption. destruct (zc i j) eqn:Z.
  - right. split; [reflexivity|]. apply zc_In, zero_cells_In, unassigned_In in Z. destruct Z as (_ & _ & Z).
    rewrite m2_cell in Z by assumption. destruct (negb (full i) && Nat.eqb j (pcol i)); [discriminate|].
    rewrite m1_cell in Z by assumption. destruct (is_nan (cget mask i j) && full i); [discriminate|].
    destruct (cget mask i j); try discriminate. reflexivity.
  - rewrite m2_cell by assumption. destruct (negb (full i) && Nat.eqb j (pcol i)) eqn:E.
    + left. apply andb_true_iff in E. destruct E as [E1 E2]. apply negb_true_iff in E1. apply Nat.eqb_eq in E2. subst j.
      destruct (pcol_spec i Hi E1) as [_ P]. rewrite m1_cell, E1, andb_false_r in P by assumption. auto.
    + rewrite m1_cell by assumption. assert (MC := mask_cell i j Hi Hj).
      destruct (cget mask i j) as [| |x]; [|contradiction|].
      * cbn [is_nan andb]. destruct (full i); [right; split; reflexivity|left; auto].
      * cbn [is_nan andb]. right; split; reflexivity.
Qed.
Lemma m3_picked i : i < n -> full i = false -> is_nan (cget m3 i (pcol i)) = true.
Proof.
  intros Hi F. destruct (pcol_spec i Hi F) as [P1 P2]. unfold m3. rewrite cget_cmk by assumption.
  destruct (zc i (pcol i)) eqn:Z.
  - apply zc_In, zero_cells_In, unassigned_In in Z. destruct Z as (_ & _ & Z). rewrite m2_cell, F, Nat.eqb_refl in Z by assumption. discriminate.
  - rewrite m2_cell, F, Nat.eqb_refl by assumption. reflexivity.
Qed.
Lemma m3_zero i j : In (i, j) zero_cells -> i < n /\ j < n /\ cget m3 i j = CVal 0q /\ mval mask i j = None.
Proof.
  intros H. assert (H2 := H). apply zero_cells_In, unassigned_In in H2. destruct H2 as (Hi & Hj & Z). repeat split; try assumption.
  - unfold m3. rewrite cget_cmk by assumption. rewrite (proj2 (zc_In i j) H). reflexivity.
  - rewrite m2_cell in Z by assumption. destruct (negb (full i) && Nat.eqb j (pcol i)); [discriminate|].
    rewrite m1_cell in Z by assumption. destruct (is_nan (cget mask i j) && full i); [discriminate|].
    unfold mval. destruct (cget mask i j); try discriminate. reflexivity.
Qed.

Hypothesis Hdraw : forall i j, i < n -> j < n -> (0 < draw i j)%Qc.

Let p := mk n n (fun i j => if is_nan (cget m3 i j) then draw i j else cval (cget m3 i j)).
Let s i := sumn n (fun l => if is_nan (cget m3 i l) then mget p i l else 0q).
Let si i := sumn n (fun l => if is_nan (cget m3 i l) then 0q else mget p i l).
Let out := mk n n (fun i j => if Qcltb 0 (s i) && is_nan (cget m3 i j) then (mget p i j * ((1 - si i) / s i))%Qc else mget p i j).

Lemma p_cell i j : i < n -> j < n -> mget p i j = if is_nan (cget m3 i j) then draw i j else cval (cget mask i j).
Proof.
  intros Hi Hj. unfold p. rewrite mget_mk by assumption. destruct (m3_cell i j Hi Hj) as [(E & _)|(E & E2)]; rewrite E; [reflexivity|].
  rewrite E2. reflexivity.
Qed.
Lemma si_eq i : i < n -> si i = sumn n (fun j => cval (cget mask i j)).
Proof.
  intros Hi. unfold si. apply sumn_ext. intros j Hj. rewrite p_cell by assumption.
  destruct (m3_cell i j Hi Hj) as [(E & E2 & _)|(E & E2)]; rewrite E; [|reflexivity].
  destruct (cget mask i j); try discriminate. reflexivity.
Qed.
Lemma s_pos i : i < n -> full i = false -> (0 < s i)%Qc.
Proof.
  intros Hi F. unfold s. destruct (pcol_spec i Hi F) as [P1 _].
  apply (sumn_pos n _ (pcol i)); [exact P1| |].
  - rewrite p_cell, m3_picked by assumption. apply Hdraw; assumption.
  - intros j Hj. destruct (is_nan (cget m3 i j)) eqn:E; [|discriminate]. rewrite p_cell, E by assumption. apply Qclt_le_weak, Hdraw; assumption.
Qed.
Lemma s_full i : i < n -> full i = true -> s i = 0q.
Proof.
  intros Hi F. unfold s. apply sumn_0. intros j Hj. destruct (m3_cell i j Hi Hj) as [(_ & _ & E)|(E & _)]; [congruence|].
  rewrite E. reflexivity.
Qed.
Lemma out_cell i j : i < n -> j < n ->
  mget out i j = if is_nan (cget m3 i j) then (draw i j * ((1 - si i) / s i))%Qc else cval (cget mask i j).
Proof.
  intros Hi Hj. unfold out. rewrite mget_mk by assumption. rewrite p_cell by assumption.
  destruct (m3_cell i j Hi Hj) as [(E & _ & F)|(E & _)]; rewrite E.
  - rewrite (proj2 (Qcltb_lt 0 (s i)) (s_pos i Hi F)). reflexivity.
  - rewrite andb_false_r. reflexivity.
Qed.
Lemma out_nonneg i j : i < n -> j < n -> (0 <= mget out i j)%Qc.
Proof.
  intros Hi Hj. rewrite out_cell by assumption. destruct (m3_cell i j Hi Hj) as [(E & _ & F)|(E & _)]; rewrite E.
  - apply Qc_mul_nonneg; [apply Qclt_le_weak, Hdraw; assumption|]. apply Qc_div_nonneg; [|apply s_pos; assumption].
    rewrite si_eq by exact Hi. assert (L := mask_le1 i Hi). qclra.
  - assert (M := mask_cell i j Hi Hj). destruct (cget mask i j); cbn; [discriminate|discriminate|apply M].
Qed.
Lemma out_sum i : i < n -> sumn n (fun j => mget out i j) = if full i then mask_sum n (mval mask) i else 1q.
Proof.
  intros Hi. rewrite mask_sum_eq, <- si_eq by exact Hi. destruct (full i) eqn:F.
  - rewrite si_eq by exact Hi. apply sumn_ext. intros j Hj. rewrite out_cell by assumption.
    destruct (m3_cell i j Hi Hj) as [(_ & _ & E)|(E & _)]; [congruence|]. rewrite E; reflexivity.
  - rewrite (sumn_ext n _ (fun j => (if is_nan (cget m3 i j) then mget p i j else 0) * ((1 - si i) / s i) + (if is_nan (cget m3 i j) then 0 else mget p i j))%Qc).
    + rewrite sumn_plus, sumn_mul_r. fold (s i) (si i). field. apply Qc_lt_neq, s_pos; assumption.
    + intros j Hj. rewrite out_cell, p_cell by assumption. destruct (is_nan (cget m3 i j)); ring.
Qed.
Lemma out_agrees i j x : i < n -> j < n -> mval mask i j = Some x -> mget out i j = x.
Proof.
  intros Hi Hj H. rewrite out_cell by assumption. unfold mval in H.
  destruct (m3_cell i j Hi Hj) as [(_ & E & _)|(E & _)].
  - destruct (cget mask i j); discriminate.
  - rewrite E. destruct (cget mask i j); inversion H. reflexivity.
Qed.
Lemma out_zeros : zeros <= count_cells n (fun i j => match mval mask i j with None => Qceqb (mget out i j) 0 | Some _ => false end).
Proof.
  rewrite <- zero_cells_length. unfold count_cells. apply NoDup_incl_length; [apply zero_cells_NoDup|].
  intros (i, j) H. destruct (m3_zero i j H) as (Hi & Hj & Z & M). apply filter_In. split.
  - apply in_prod; apply in_seq; lia.
  - cbn. rewrite M. apply Qceqb_eq. rewrite out_cell by assumption. rewrite Z. cbn.
    unfold mval in M. destruct (cget mask i j); try reflexivity. discriminate.
Qed.
Lemma out_zeros_exact : count_cells n (fun i j => match mval mask i j with None => negb (row_complete n (mval mask) i) && Qceqb (mget out i j) 0 | Some _ => false end) = zeros.
Proof.
  rewrite <- zero_cells_length. unfold count_cells. apply Nat.le_antisymm.
  - apply NoDup_incl_length; [apply NoDup_filter; rewrite list_prod_flat; apply NoDup_pairs; [apply seq_NoDup|intros; apply seq_NoDup]|].
    intros (i, j) H. apply filter_In in H. destruct H as (I & H). cbn [fst snd] in H. apply in_prod_iff in I. destruct I as (Hi & Hj). apply in_seq in Hi, Hj.
    destruct (mval mask i j) eqn:M; [discriminate|]. rewrite <- full_eq in H. apply andb_true_iff in H. destruct H as (F & Z). apply negb_true_iff in F. apply Qceqb_eq in Z.
    apply zc_In. destruct (zc i j) eqn:Ez; [reflexivity|]. exfalso.
    assert (N3 : is_nan (cget m3 i j) = true).
    { unfold m3. rewrite cget_cmk by lia. rewrite Ez. rewrite m2_cell by lia. destruct (negb (full i) && Nat.eqb j (pcol i)); [reflexivity|]. rewrite m1_cell, F, andb_false_r by lia.
      assert (K := nan_free i j ltac:(lia) ltac:(lia)). rewrite M in K. destruct (cget mask i j); try discriminate. reflexivity. }
    rewrite out_cell, N3 in Z by lia.
    assert (D := Hdraw i j ltac:(lia) ltac:(lia)). assert (Sp := s_pos i ltac:(lia) F).
    assert (Lt : (si i < 1)%Qc).
    { rewrite si_eq by lia. assert (L := mask_le1 i ltac:(lia)). apply Qcle_lt_or_eq in L. destruct L as [L|L]; [exact L|]. unfold full in F. rewrite L in F. vm_compute in F. discriminate. }
    assert (P0 : (0 < (1 - si i) / s i)%Qc) by (apply Qc_div_pos; [qclra|exact Sp]).
    assert (P1 : (0 < draw i j * ((1 - si i) / s i))%Qc) by (apply Qc_mul_pos; assumption). rewrite Z in P1. apply (Qclt_irr _ P1).
  - apply NoDup_incl_length; [apply zero_cells_NoDup|].
    intros (i, j) H. destruct (m3_zero i j H) as (Hi & Hj & Z & M). apply filter_In. split.
    + apply in_prod; apply in_seq; lia.
    + cbn. rewrite M. apply andb_true_iff. split.
      * rewrite <- full_eq. apply zero_cells_In, unassigned_In in H. destruct H as (_ & _ & H). rewrite m2_cell in H by assumption.
        destruct (full i) eqn:F; [|reflexivity]. cbn [negb andb] in H. rewrite m1_cell, F, andb_true_r in H by assumption. destruct (is_nan (cget mask i j)) eqn:E; [discriminate|congruence].
      * apply Qceqb_eq. rewrite out_cell by assumption. rewrite Z. cbn. unfold mval in M. destruct (cget mask i j); try reflexivity. discriminate.
Qed.
Lemma out_wf : wf n n out. Proof. apply wf_mk. Qed.
Lemma out_eq : mc_random n zeros mask pick perm draw = Ok out.
Proof.
  change ((if Z.leb (Z.of_nat zeros) (Z.of_nat total - Z.of_nat notfull) then
    if forallb (fun i => full i || Nat.ltb 0 (length (nan_cols n m1 i))) (seq 0 n) then Ok out else Err ValueErr
    else Err ValueErr) = Ok out).
  rewrite total_eq.
  destruct (Z.leb_spec (Z.of_nat zeros) (Z.of_nat (zero_capacity n (mval mask) + notfull) - Z.of_nat notfull)); [|lia].
  assert (F : forallb (fun i => full i || Nat.ltb 0 (length (nan_cols n m1 i))) (seq 0 n) = true).
  { apply forallb_forall. intros i Hi. apply in_seq in Hi. apply orb_true_iff. destruct (Hfree i ltac:(lia)); [left; assumption|right].
    apply Nat.ltb_lt; assumption. }
  rewrite F. reflexivity.
Qed.
End Random.

Lemma mc_random_inv n zeros mask pick perm draw P : mc_random n zeros mask pick perm draw = Ok P ->
  let full i := isclose (sumn n (fun j => cval (cget mask i j))) 1 in
  let m1 := cmk n (fun i j => if is_nan (cget mask i j) && full i then CVal 0q else cget mask i j) in
  (forall i, i < n -> full i = true \/ 0 < length (nan_cols n m1 i)) /\
  (Z.of_nat zeros <= Z.of_nat (length (flat_map (nan_cols n m1) (seq 0 n))) - Z.of_nat (length (filter (fun i => negb (full i)) (seq 0 n))))%Z.
Proof.
  intros H full m1. unfold mc_random in H.
  destruct (Z.leb_spec (Z.of_nat zeros) (Z.of_nat (length (flat_map (nan_cols n m1) (seq 0 n))) - Z.of_nat (length (filter (fun i => negb (full i)) (seq 0 n))))) as [G|G].
  2:{ exfalso. apply Z.leb_gt in G. revert H.
      match goal with |- (if Z.leb ?a ?b then _ else _) = _ -> _ => change (Z.leb a b) with (Z.leb (Z.of_nat zeros) (Z.of_nat (length (flat_map (nan_cols n m1) (seq 0 n))) - Z.of_nat (length (filter (fun i => negb (full i)) (seq 0 n))))) end.
      rewrite G. discriminate. }
  destruct (forallb (fun i => full i || Nat.ltb 0 (length (nan_cols n m1 i))) (seq 0 n)) eqn:F.
  2:{ exfalso. revert H. match goal with |- (if ?x then if forallb ?f _ then _ else _ else _) = _ -> _ =>
        destruct x; [|discriminate]; change f with (fun i => full i || Nat.ltb 0 (length (nan_cols n m1 i))) end.
      rewrite F. discriminate. }
  clear H. split; [|exact G]. intros i Hi. rewrite forallb_forall in F. specialize (F i ltac:(apply in_seq; lia)).
  apply orb_true_iff in F. destruct F as [F|F]; [left; exact F|right; apply Nat.ltb_lt; exact F].
Qed.


Lemma random_spec size st zeros mask pick perm draw c :
  random size st zeros mask pick perm draw = Ok c ->
  let n := Z.to_nat size in
  let val := mval (the_mask n mask) in
  draws_ok n val pick perm draw ->
  2 <= n /\ names_ok n (ch_states c) /\ names_requested st n (ch_states c) /\
  wf n n (ch_p c) /\
  (forall i j, i < n -> j < n -> (0 <= mget (ch_p c) i j)%Qc) /\
  (forall i, i < n -> sumn n (fun j => mget (ch_p c) i j) = if row_complete n val i then mask_sum n val i else 1q) /\
  (forall i j x, i < n -> j < n -> val i j = Some x -> mget (ch_p c) i j = x) /\
  (zeros <= Z.of_nat (count_cells n (fun i j => match val i j with None => Qceqb (mget (ch_p c) i j) 0 | Some _ => false end)))%Z.
Proof.
  unfold random. destruct (Z.leb_spec 2 size) as [Hs|]; [|discriminate].
  set (n := Z.to_nat size). destruct (gen_states st n _) as [l|] eqn:E; [|discriminate]. cbn [bind].
  destruct (Z.leb_spec 0 zeros) as [Hz|]; [|discriminate]. fold (the_mask n mask). set (m := the_mask n mask).
  destruct (mask_ok n m) eqn:M; [|discriminate].
  destruct (mc_random n (Z.to_nat zeros) m pick perm draw) as [P|] eqn:R; [|discriminate]. cbn [bind].
  intros H; inversion H; subst c; clear H. cbv zeta. intros (D1 & D2 & D3). cbn [ch_p ch_states].
  assert (Hn : 2 <= n) by (unfold n; lia).
  apply gen_states_ok in E; [|exact Hn]. destruct E as [E1 E2].
  destruct (mc_random_inv _ _ _ _ _ _ _ R) as [F G].
  assert (D3' : forall i j, i < n -> j < n -> (0 < draw i j)%Qc) by (intros; apply D3; assumption).
  assert (FC : forall i, i < n -> isclose (sumn n (fun j => cval (cget m i j))) 1 = false -> pick i < free_cells n (mval m) i).
  { intros i Hi Fi. assert (Fr := Fi). rewrite (full_eq n m) in Fr. apply D1; [exact Hi|exact Fr|].
    destruct (F i Hi) as [F'|F']; [congruence|]. rewrite (nan_cols1 n m M i Hi), Fi in F'. exact F'. }
  assert (ZC : Z.to_nat zeros <= zero_capacity n (mval m)).
  { rewrite (total_eq n m M F) in G. lia. }
  rewrite (out_eq n (Z.to_nat zeros) m pick perm draw M F ZC) in R. inversion R; subst P.
  repeat split; try assumption; try apply E1.
  - apply wf_mk.
  - apply wf_mk.
  - intros i j Hi Hj. apply out_nonneg; assumption.
  - intros i Hi. rewrite <- (full_eq n m). apply out_sum; assumption.
  - intros i j x Hi Hj Hx. apply out_agrees; assumption.
  - assert (Z := out_zeros n (Z.to_nat zeros) m pick perm draw M FC ZC D2 D3'). apply Nat2Z.inj_le in Z.
    rewrite Z2Nat.id in Z by exact Hz. exact Z.
Qed.

Lemma random_zeros size st zeros mask pick perm draw c :
  random size st zeros mask pick perm draw = Ok c ->
  let n := Z.to_nat size in
  let val := mval (the_mask n mask) in
  draws_ok n val pick perm draw ->
  Z.of_nat (count_cells n (fun i j => match val i j with None => negb (row_complete n val i) && Qceqb (mget (ch_p c) i j) 0 | Some _ => false end)) = zeros /\
  (forall i j, i < n -> j < n -> row_complete n val i = true -> val i j = None -> mget (ch_p c) i j = 0q).
Proof.
  unfold random. destruct (Z.leb_spec 2 size) as [Hs|]; [|discriminate].
  set (n := Z.to_nat size). destruct (gen_states st n _) as [l|] eqn:E; [|discriminate]. cbn [bind].
  destruct (Z.leb_spec 0 zeros) as [Hz|]; [|discriminate]. fold (the_mask n mask). set (m := the_mask n mask).
  destruct (mask_ok n m) eqn:M; [|discriminate].
  destruct (mc_random n (Z.to_nat zeros) m pick perm draw) as [P|] eqn:R; [|discriminate]. cbn [bind].
  intros H; inversion H; subst c; clear H. cbv zeta. intros (D1 & D2 & D3). cbn [ch_p ch_states].
  destruct (mc_random_inv _ _ _ _ _ _ _ R) as [F G].
  assert (D3' : forall i j, i < n -> j < n -> (0 < draw i j)%Qc) by (intros; apply D3; assumption).
  assert (FC : forall i, i < n -> isclose (sumn n (fun j => cval (cget m i j))) 1 = false -> pick i < free_cells n (mval m) i).
  { intros i Hi Fi. assert (Fr := Fi). rewrite (full_eq n m) in Fr. apply D1; [exact Hi|exact Fr|].
    destruct (F i Hi) as [F'|F']; [congruence|]. rewrite (nan_cols1 n m M i Hi), Fi in F'. exact F'. }
  assert (ZC : Z.to_nat zeros <= zero_capacity n (mval m)).
  { rewrite (total_eq n m M F) in G. lia. }
  rewrite (out_eq n (Z.to_nat zeros) m pick perm draw M F ZC) in R. inversion R; subst P. split.
  - rewrite (out_zeros_exact n (Z.to_nat zeros) m pick perm draw M FC ZC D2 D3'). apply Z2Nat.id. exact Hz.
  - intros i j Hi Hj Rc Vn. rewrite <- (full_eq n m) in Rc. rewrite (out_cell n (Z.to_nat zeros) m pick perm draw M FC ZC D2 D3' i j Hi Hj).
    destruct (m3_cell n (Z.to_nat zeros) m pick perm M FC ZC D2 i j Hi Hj) as [(_ & _ & K)|(K & _)]; [congruence|]. rewrite K.
    unfold mval in Vn. destruct (cget m i j); try reflexivity. discriminate.
Qed.
Lemma mask_cells_iff (m : list (list cell)) : forallb (forallb (fun c => match c with CNan => true | CInf => false | CVal x => in01 x end)) m = true <->
  (forall r c, In r m -> In c r -> c = CNan \/ exists x, c = CVal x /\ (0 <= x <= 1)%Qc).
Proof.
  rewrite forallb_forall. split.
  - intros H r c Hr Hc. specialize (H r Hr). rewrite forallb_forall in H. specialize (H c Hc). destruct c as [| |x]; [left; reflexivity|discriminate|right; exists x; split; [reflexivity|apply in01_true; exact H]].
  - intros H r Hr. apply forallb_forall. intros c Hc. destruct (H r c Hr Hc) as [->|(x & -> & Hx)]; [reflexivity|apply in01_true; exact Hx].
Qed.
Lemma mask_sum_cval k m i : mask_sum k (mval m) i = sumn k (fun j => cval (cget m i j)).
Proof. unfold mask_sum, mval. apply sumn_ext. intros j _. destruct (cget m i j); reflexivity. Qed.
Lemma mask_ok_iff n m : mask_ok n m = true <-> mask_valid n n m.
Proof.
  unfold mask_ok, mask_valid. rewrite !andb_true_iff, Nat.eqb_eq, mask_cells_iff, !forallb_forall. split.
  - intros (((A & B) & C) & D). split; [exact A|]. split; [intros r Hr; apply Nat.eqb_eq, B, Hr|]. split; [exact C|].
    intros i Hi. rewrite mask_sum_cval. apply Qcleb_le, D, in_seq. lia.
  - intros (A & B & C & D). split; [split; [split; [exact A|intros r Hr; apply Nat.eqb_eq, B, Hr]|exact C]|].
    intros i Hi. apply in_seq in Hi. apply Qcleb_le. rewrite <- mask_sum_cval. apply D. lia.
Qed.
Lemma free_mask_ok n k : forallb (forallb (fun c => match c with CNan => true | CInf => false | CVal x => in01 x end)) (tab n (fun _ => tab k (fun _ => CNan))) = true.
Proof.
  apply mask_cells_iff. intros r c Hr Hc. apply in_tab in Hr. destruct Hr as (i & _ & ->). apply in_tab in Hc. destruct Hc as (j & _ & ->). left. reflexivity.
Qed.
Lemma given_mask_ok n mask : given_mask_valid n n mask -> mask_ok n (the_mask n mask) = true.
Proof.
  intros H. apply mask_ok_iff. destruct mask as [m|]; [exact H|]. unfold the_mask, cmk. split; [apply tab_length|].
  split; [intros r Hr; apply in_tab in Hr; destruct Hr as (i & _ & ->); apply tab_length|]. split; [apply mask_cells_iff, free_mask_ok|].
  intros i Hi. rewrite mask_sum_cval. replace (sumn n _) with 0q; [discriminate|]. symmetry. apply sumn_0. intros j Hj. unfold cget. rewrite tab_nth by exact Hi. rewrite tab_nth by exact Hj. reflexivity.
Qed.
Lemma random_mask_valid size st zeros m pick perm draw c : random size st zeros (Some m) pick perm draw = Ok c -> mask_valid (Z.to_nat size) (Z.to_nat size) m.
Proof.
  unfold random. destruct (Z.leb 2 size); [|discriminate]. cbv iota zeta. destruct (gen_states st _ _); [|discriminate]. cbn [bind]. destruct (Z.leb 0 zeros); [|discriminate].
  cbv iota. destruct (mask_ok _ m) eqn:M; [|discriminate]. intros _. apply mask_ok_iff. exact M.
Qed.
Lemma random_total size zeros mask pick perm draw :
  let n := Z.to_nat size in
  let val := mval (the_mask n mask) in
  (2 <= size)%Z -> (0 <= zeros <= Z.of_nat (zero_capacity n val))%Z ->
  given_mask_valid n n mask ->
  (forall i, i < n -> row_complete n val i = true \/ 0 < free_cells n val i) ->
  exists c, random size None zeros mask pick perm draw = Ok c.
Proof.
  cbv zeta. intros Hs [Hz Hc] M F. apply given_mask_ok in M. unfold random. destruct (Z.leb_spec 2 size); [|lia].
  cbn [gen_states bind]. destruct (Z.leb_spec 0 zeros); [|lia]. fold (the_mask (Z.to_nat size) mask).
  rewrite M. rewrite out_eq.
  - cbn [bind]. eexists; reflexivity.
  - exact M.
  - intros i Hi. destruct (F i Hi) as [G|G]; [left; rewrite (full_eq (Z.to_nat size) _); exact G|].
    destruct (isclose _ 1) eqn:E; [left; reflexivity|right]. rewrite (nan_cols1 _ _ M i Hi), E. exact G.
  - lia.
Qed.

Lemma random_distribution_spec draws st c : random_distribution draws st = Ok c ->
  wf (nrows draws) (nrows draws) draws ->
  valid_chain (nrows draws) c /\ names_requested st (nrows draws) (ch_states c).
Proof.
  unfold random_distribution. destruct (Nat.leb_spec 2 (nrows draws)) as [N|]; [|discriminate].
  destruct (gen_states st _ _) as [l|] eqn:E; [|discriminate]. cbn [bind]. intros H W; inversion H; subst c.
  apply gen_states_ok in E; [|exact N]. destruct E as [E1 E2]. split; [|exact E2]. split; [exact N|]. split; [|exact E1].
  cbn [ch_p]. apply norm_any_stochastic; [lia|lia|apply wf_mk|].
  intros i j Hi Hj. rewrite mget_mk by assumption. unfold Qcmax. destruct (Qcleb_spec (mget draws i j) 0); [discriminate|qclra].
Qed.
