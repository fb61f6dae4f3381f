(** L_Io1: dictionaries. *)
From Verif Require Import S_Io L_Gen1 L_Valid2.
Open Scope nat_scope.
Open Scope res_scope.

Lemma chars_str t : chars (str t) = t.
Proof. apply list_ascii_of_string_of_list_ascii. Qed.
Lemma str_chars s : str (chars s) = s.
Proof. apply string_of_list_ascii_of_string. Qed.
Lemma key_eqb_eq a b : key_eqb a b = true <-> a = b.
Proof. unfold key_eqb. destruct (list_eq_dec string_dec a b); split; congruence. Qed.
Lemma key_eqb_refl a : key_eqb a a = true.
Proof. apply key_eqb_eq. reflexivity. Qed.

Lemma dict_set_absent d k v : ~ In k (map fst d) -> dict_set d k v = d ++ [(k, v)].
Proof.
  induction d as [|[k' v'] d IH]; intros H; [reflexivity|]. cbn in *. destruct (key_eqb k' k) eqn:E; [apply key_eqb_eq in E; tauto|]. rewrite IH by tauto. reflexivity.
Qed.
Lemma dict_of_nodup l : NoDup (map fst l) -> dict_of l = l.
Proof.
  intros H. unfold dict_of. assert (G : forall l d, NoDup (map fst (d ++ l)) -> fold_left (fun d (e : key * num) => dict_set d (fst e) (snd e)) l d = d ++ l).
  { clear. induction l as [|[k v] l IH]; intros d H; [rewrite app_nil_r; reflexivity|]. cbn [fold_left fst snd]. rewrite map_app in H. cbn in H.
    rewrite dict_set_absent; [|apply NoDup_remove_2 in H; intros C; apply H; rewrite in_app_iff; left; exact C].
    rewrite IH; [rewrite <- app_assoc; reflexivity|]. rewrite <- app_assoc. rewrite map_app. exact H. }
  rewrite G; [reflexivity|exact H].
Qed.
(** lookup *)
Fixpoint lookup (d : dict) (k : key) : option num :=
  match d with [] => None | (k', v) :: r => if key_eqb k' k then Some v else lookup r k end.
Lemma lookup_in d k v : NoDup (map fst d) -> (lookup d k = Some v <-> In (k, v) d).
Proof.
  induction d as [|[k' v'] d IH]; cbn; intros H; [split; [discriminate|intros []]|]. inversion H as [|? ? Hn Hd]; subst.
  destruct (key_eqb k' k) eqn:E.
  - apply key_eqb_eq in E. subst. split; [intros X; inversion X; auto|]. intros [X|X]; [inversion X; reflexivity|].
    exfalso. apply Hn. apply in_map_iff. exists (k, v). auto.
  - rewrite IH by exact Hd. split; [auto|]. intros [X|X]; [|exact X]. inversion X; subst. rewrite key_eqb_refl in E. discriminate.
Qed.
Lemma lookup_none d k : lookup d k = None <-> ~ In k (map fst d).
Proof.
  induction d as [|[k' v'] d IH]; cbn; [tauto|]. destruct (key_eqb k' k) eqn:E.
  - apply key_eqb_eq in E. subst. split; [discriminate|tauto].
  - rewrite IH. split; [|tauto]. intros H [X|X]; [subst; rewrite key_eqb_refl in E; discriminate|tauto].
Qed.

(** matrices of floats *)
Definition shape (n m : nat) (p : nmat) : Prop := length p = n /\ forall r, In r p -> length r = m.
Definition nget (p : nmat) (i j : nat) : num := nth j (nth i p []) NaN.
Lemma setn_length {A} n (x : A) l : length (setn n x l) = length l.
Proof. revert n; induction l as [|y l IH]; intros [|n]; cbn; auto. Qed.
Lemma setn_eq {A} n (x : A) l d : n < length l -> nth n (setn n x l) d = x.
Proof. revert n; induction l as [|y l IH]; intros [|n] H; cbn in *; try lia; auto. apply IH. lia. Qed.
Lemma setn_neq {A} n m (x : A) l d : m <> n -> nth m (setn n x l) d = nth m l d.
Proof. revert n m; induction l as [|y l IH]; intros [|n] [|m] H; cbn; auto; try contradiction. Qed.
Lemma setn_in {A} n (x : A) l y : In y (setn n x l) -> y = x \/ In y l.
Proof. revert n; induction l as [|z l IH]; intros [|n] H; cbn in *; auto; [destruct H; auto|]. destruct H as [->|H]; auto. apply IH in H. destruct H; auto. Qed.
Lemma shape_row n m p i : shape n m p -> i < n -> length (nth i p []) = m.
Proof. intros [H1 H2] Hi. apply H2. apply nth_In. lia. Qed.
Lemma set2_shape n m p i j x : shape n m p -> i < n -> shape n m (set2 i j x p).
Proof.
  intros H Hi. split; [unfold set2; rewrite setn_length; apply H|]. intros r Hr. apply setn_in in Hr. destruct Hr as [->|Hr]; [rewrite setn_length; apply shape_row with n; assumption|apply H; exact Hr].
Qed.
Lemma set2_get n m p i j x i' j' : shape n m p -> i < n -> j < m -> i' < n -> j' < m ->
  nget (set2 i j x p) i' j' = if Nat.eqb i' i && Nat.eqb j' j then x else nget p i' j'.
Proof.
  intros H Hi Hj Hi' Hj'. unfold nget, set2. destruct (Nat.eqb_spec i' i) as [->|Hne].
  - rewrite setn_eq by (destruct H; lia). destruct (Nat.eqb_spec j' j) as [->|Hne]; cbn; [apply setn_eq; rewrite (shape_row n m) by assumption; exact Hj|apply setn_neq; exact Hne].
  - cbn. rewrite setn_neq by exact Hne. reflexivity.
Qed.
Lemma nzeros_shape n m : shape n m (nzeros n m).
Proof. unfold nzeros. split; [apply repeat_length|]. intros r Hr. apply repeat_spec in Hr. subst. apply repeat_length. Qed.
Lemma nzeros_get n m i j : i < n -> j < m -> nget (nzeros n m) i j = Fin 0.
Proof. intros Hi Hj. unfold nget, nzeros. rewrite (nth_indep _ [] (repeat (Fin 0) m)) by (rewrite repeat_length; exact Hi). rewrite nth_repeat. rewrite (nth_indep _ NaN (Fin 0)) by (rewrite repeat_length; exact Hj). apply nth_repeat. Qed.
Lemma nmat_ext n m p q : shape n m p -> shape n m q -> (forall i j, i < n -> j < m -> nget p i j = nget q i j) -> p = q.
Proof.
  intros Hp Hq H. apply (nth_ext p q [] []); [destruct Hp, Hq; congruence|]. intros i Hi. assert (Hin : i < n) by (destruct Hp; lia).
  apply (nth_ext _ _ NaN NaN); [rewrite (shape_row n m p), (shape_row n m q) by assumption; reflexivity|]. intros j Hj. rewrite (shape_row n m p) in Hj by assumption. apply H; assumption.
Qed.
Lemma fin_shape n m (P : mat) : wf n m P -> shape n m (map (map Fin) P).
Proof. intros [H1 H2]. split; [rewrite map_length; exact H1|]. intros r Hr. apply in_map_iff in Hr. destruct Hr as (r' & <- & Hr). rewrite map_length. apply H2; exact Hr. Qed.
Lemma fin_get n m (P : mat) i j : wf n m P -> i < n -> j < m -> nget (map (map Fin) P) i j = Fin (mget P i j).
Proof.
  intros H Hi Hj. unfold nget. change (@nil num) with (map Fin []). rewrite map_nth.
  assert (HL : j < length (nth i P [])). { destruct H as [H1 H2]. rewrite (H2 (nth i P [])) by (apply nth_In; lia). exact Hj. }
  rewrite (nth_indep _ NaN (Fin 0q)) by (rewrite map_length; exact HL). rewrite map_nth. reflexivity.
Qed.

(** positions of names *)
Lemma pos_nth l i : NoDup l -> i < length l -> pos l (nth i l EmptyString) = Ok i.
Proof.
  intros HN Hi. unfold pos. destruct (index_of String.eqb (nth i l EmptyString) l) as [k|] eqn:E.
  - apply (index_of_Some _ String.eqb_eq) in E. destruct E as [E _]. f_equal.
    apply (proj1 (NoDup_nth_error l) HN); [apply nth_error_Some; congruence|]. rewrite E. symmetry. apply nth_error_nth'. exact Hi.
  - apply (index_of_None _ String.eqb_eq) in E. exfalso. apply E. apply nth_In. exact Hi.
Qed.
Lemma pos_ok l s i : pos l s = Ok i -> i < length l /\ nth i l EmptyString = s.
Proof.
  unfold pos. destruct (index_of String.eqb s l) as [k|] eqn:E; intros H; [|discriminate]. inversion H; subst. apply (index_of_Some _ String.eqb_eq) in E. destruct E as [E _].
  split; [apply nth_error_Some; congruence|]. apply nth_error_nth. exact E.
Qed.
Lemma in_nth (l : list string) s : In s l -> exists i, i < length l /\ nth i l EmptyString = s.
Proof. intros H. apply (In_nth _ _ EmptyString) in H. destruct H as (i & H1 & H2). exists i. auto. Qed.

Lemma nth_inj (l : list string) i j : NoDup l -> i < length l -> j < length l -> nth i l EmptyString = nth j l EmptyString -> i = j.
Proof. intros HN Hi Hj E. apply (proj1 (NoDup_nth l EmptyString) HN); assumption. Qed.

(** filling a matrix *)
Definition pair_keys (states : list string) (d : dict) : Prop := forall k v, In (k, v) d -> exists a b, k = [a; b] /\ In a states /\ In b states.
Lemma fill_ok states d : NoDup states -> pair_keys states d -> NoDup (map fst d) -> forall p, shape (length states) (length states) p ->
  exists q, fill_mc states d p = Ok q /\ shape (length states) (length states) q /\
    forall i j, i < length states -> j < length states ->
      nget q i j = match lookup d [nth i states EmptyString; nth j states EmptyString] with Some v => v | None => nget p i j end.
Proof.
  intros HN. induction d as [|[k v] d IH]; intros HK HD p Hp; [exists p; repeat split; auto; apply Hp|].
  destruct (HK k v (or_introl eq_refl)) as (a & b & -> & Ha & Hb). apply in_nth in Ha. apply in_nth in Hb. destruct Ha as (i0 & Hi0 & <-), Hb as (j0 & Hj0 & <-).
  cbn [fill_mc]. rewrite !pos_nth by assumption. cbn [bind]. inversion HD as [|? ? Hd1 Hd2]; subst.
  destruct (IH (fun k' v' H => HK k' v' (or_intror H)) Hd2 (set2 i0 j0 v p) (set2_shape _ _ _ _ _ _ Hp Hi0)) as (q & Eq & Sq & Gq).
  exists q. split; [exact Eq|]. split; [exact Sq|]. intros i j Hi Hj. rewrite Gq by assumption. cbn [lookup].
  destruct (key_eqb _ _) eqn:E.
  - apply key_eqb_eq in E. injection E as E1 E2. apply nth_inj in E1; auto. apply nth_inj in E2; auto. subst.
    replace (lookup d _) with (@None num) by (symmetry; apply lookup_none; exact Hd1). rewrite (set2_get (length states) (length states)) by assumption. rewrite !Nat.eqb_refl. reflexivity.
  - destruct (lookup d _) eqn:EL; [reflexivity|]. rewrite (set2_get (length states) (length states)) by assumption.
    destruct (Nat.eqb_spec i i0) as [->|]; [|reflexivity]. destruct (Nat.eqb_spec j j0) as [->|]; [|reflexivity]. cbn. rewrite key_eqb_refl in E. discriminate.
Qed.

(** sums *)
Lemma num_sum_fin l : num_sum (map Fin l) = Fin (fold_left Qcplus l 0q).
Proof. unfold num_sum. generalize 0q. induction l as [|x l IH]; intros a; [reflexivity|]. cbn. apply IH. Qed.
Lemma fold_plus_acc l a : (fold_left Qcplus l a = a + fold_left Qcplus l 0q)%Qc.
Proof. revert a; induction l as [|x l IH]; intros a; cbn; [ring|]. rewrite IH, (IH (0q + x)%Qc). ring. Qed.
Lemma fold_plus_sumn l : fold_left Qcplus l 0q = sumn (length l) (fun j => nth j l 0q).
Proof.
  induction l as [|x l IH]; [reflexivity|]. cbn [fold_left length]. rewrite fold_plus_acc, IH. rewrite sumn_S_front. cbn [nth]. ring.
Qed.
Lemma rows_sum_fin n m P : wf n m P -> (rows_sum_to_one (map (map Fin) P) = true <-> nearly_stochastic n m P).
Proof.
  intros H. unfold rows_sum_to_one. rewrite forallb_forall. assert (HR : forall r, In r P -> num_isclose (num_sum (map Fin r)) 1 = isclose (sumn m (fun j => nth j r 0q)) 1q).
  { intros r Hr. rewrite num_sum_fin, fold_plus_sumn. destruct H as [_ H]. rewrite (H r Hr). reflexivity. }
  split.
  - intros HA i Hi. assert (Hr : In (nth i P []) P) by (apply nth_In; destruct H; lia). specialize (HA (map Fin (nth i P [])) (in_map _ _ _ Hr)). rewrite HR in HA by exact Hr.
    apply isclose_one in HA. exact HA.
  - intros HA r Hr. apply in_map_iff in Hr. destruct Hr as (r' & <- & Hr). rewrite HR by exact Hr. apply isclose_one. apply (In_nth _ _ []) in Hr. destruct Hr as (i & Hi & <-).
    apply HA. destruct H; lia.
Qed.

(** products of index ranges *)
Lemma nodup_map_inj {A B} (f : A -> B) l : NoDup l -> (forall x y, In x l -> In y l -> f x = f y -> x = y) -> NoDup (map f l).
Proof.
  induction 1 as [|x l Hx Hl IH]; intros Hf; [constructor|]. cbn. constructor.
  - intros C. apply in_map_iff in C. destruct C as (y & E & Hy). apply Hf in E; [subst; contradiction|right; exact Hy|left; reflexivity].
  - apply IH. intros a b Ha Hb. apply Hf; right; assumption.
Qed.
Lemma nodup_app {A} (l m : list A) : NoDup l -> NoDup m -> (forall x, In x l -> In x m -> False) -> NoDup (l ++ m).
Proof.
  intros H1 H2 H. induction H1 as [|x l Hx H1 IH]; [exact H2|]. cbn. constructor.
  - rewrite in_app_iff. intros [K|K]; [auto|]. exact (H x (or_introl eq_refl) K).
  - apply IH. intros y Hy. apply H. right. exact Hy.
Qed.
Lemma nodup_flat_map {A B} (f : A -> list B) l : NoDup l -> (forall x, In x l -> NoDup (f x)) ->
  (forall x y z, In x l -> In y l -> In z (f x) -> In z (f y) -> x = y) -> NoDup (flat_map f l).
Proof.
  induction 1 as [|x l Hx Hl IH]; intros H1 H2; [constructor|]. cbn. apply nodup_app.
  - apply H1. left. reflexivity.
  - apply IH; [intros y Hy; apply H1; right; exact Hy|]. intros y z w Hy Hz. apply H2; right; assumption.
  - intros z Hz C. apply in_flat_map in C. destruct C as (y & Hy & Hzy). assert (x = y) by (eapply H2; [left; reflexivity|right; exact Hy|exact Hz|exact Hzy]). subst. contradiction.
Qed.
Lemma flat_map_flat_map {A B C} (f : A -> list B) (g : B -> list C) l : flat_map g (flat_map f l) = flat_map (fun x => flat_map g (f x)) l.
Proof. induction l as [|x l IH]; [reflexivity|]. cbn. rewrite flat_map_app, IH. reflexivity. Qed.
Lemma flat_map_map {A B C} (f : A -> B) (g : B -> list C) l : flat_map g (map f l) = flat_map (fun x => g (f x)) l.
Proof. induction l as [|x l IH]; [reflexivity|]. cbn. rewrite IH. reflexivity. Qed.
Lemma map_flat_map {A B C} (f : A -> list B) (g : B -> C) l : map g (flat_map f l) = flat_map (fun x => map g (f x)) l.
Proof. induction l as [|x l IH]; [reflexivity|]. cbn. rewrite map_app, IH. reflexivity. Qed.
Lemma flat_map_ext_in {A B} (f g : A -> list B) l : (forall x, In x l -> f x = g x) -> flat_map f l = flat_map g l.
Proof. induction l as [|x l IH]; intros H; [reflexivity|]. cbn. rewrite H by (left; reflexivity). rewrite IH; [reflexivity|]. intros y Hy. apply H. right. exact Hy. Qed.
Lemma flat_map_single {A B} (f : A -> B) l : flat_map (fun x => [f x]) l = map f l.
Proof. induction l as [|x l IH]; [reflexivity|]. cbn. rewrite IH. reflexivity. Qed.
Lemma flat_map_pick {A} i (x : A) a n : flat_map (fun j => if Nat.eqb i j then [x] else []) (seq a n) = if Nat.leb a i && Nat.ltb i (a + n) then [x] else [].
Proof.
  revert a; induction n as [|n IH]; intros a; cbn [seq flat_map].
  - destruct (Nat.leb_spec a i), (Nat.ltb_spec i (a + 0)); cbn; auto; lia.
  - rewrite IH. destruct (Nat.eqb_spec i a), (Nat.leb_spec (S a) i), (Nat.leb_spec a i), (Nat.ltb_spec i (S a + n)), (Nat.ltb_spec i (a + S n)); cbn; auto; lia.
Qed.
Lemma map_nth_seq (l : list string) : map (fun i => nth i l EmptyString) (seq 0 (length l)) = l.
Proof. exact (tab_of_nth l EmptyString). Qed.

Definition mc_entries (c : chain) : list (key * num) :=
  let s i := nth i (ch_states c) EmptyString in
  flat_map (fun i => map (fun j => ([s i; s j], Fin (mget (ch_p c) i j))) (seq 0 (length (ch_states c)))) (seq 0 (length (ch_states c))).
Lemma mc_entries_in c k v : In (k, v) (mc_entries c) <-> exists i j, i < length (ch_states c) /\ j < length (ch_states c) /\
  k = [nth i (ch_states c) EmptyString; nth j (ch_states c) EmptyString] /\ v = Fin (mget (ch_p c) i j).
Proof.
  unfold mc_entries. rewrite in_flat_map. split.
  - intros (i & Hi & H). apply in_map_iff in H. destruct H as (j & E & Hj). apply in_seq in Hi, Hj. inversion E; subst. exists i, j. repeat split; lia.
  - intros (i & j & Hi & Hj & -> & ->). exists i. split; [apply in_seq; lia|]. apply in_map_iff. exists j. split; [reflexivity|apply in_seq; lia].
Qed.
Lemma mc_entries_nodup c : NoDup (ch_states c) -> NoDup (map fst (mc_entries c)).
Proof.
  intros HN. unfold mc_entries. rewrite map_flat_map. apply nodup_flat_map.
  - apply seq_NoDup.
  - intros i Hi. rewrite map_map. apply nodup_map_inj; [apply seq_NoDup|]. intros x y Hx Hy E. cbn in E. injection E as E. apply in_seq in Hx, Hy. apply nth_inj in E; auto; lia.
  - intros i i' k Hi Hi' H1 H2. apply in_map_iff in H1, H2. destruct H1 as ((k1 & v1) & E1 & H1), H2 as ((k2 & v2) & E2 & H2). apply in_map_iff in H1, H2.
    destruct H1 as (j1 & F1 & _), H2 as (j2 & F2 & _). inversion F1; inversion F2; subst. cbn in *. injection E2 as E2 _. apply in_seq in Hi, Hi'. symmetry. apply nth_inj in E2; auto; lia.
Qed.
Lemma to_dictionary_entries c : NoDup (ch_states c) -> to_dictionary c = mc_entries c.
Proof. intros HN. unfold to_dictionary. apply dict_of_nodup. apply mc_entries_nodup. exact HN. Qed.
Lemma string_eqb_nth (l : list string) i j : NoDup l -> i < length l -> j < length l -> String.eqb (nth i l EmptyString) (nth j l EmptyString) = Nat.eqb i j.
Proof.
  intros HN Hi Hj. destruct (Nat.eqb_spec i j) as [->|Hne]; [apply String.eqb_refl|]. apply String.eqb_neq. intros E. apply Hne. apply (nth_inj l); assumption.
Qed.
Lemma mc_diagonal c : NoDup (ch_states c) -> diagonal (mc_entries c) = ch_states c.
Proof.
  intros HN. unfold diagonal, mc_entries. rewrite flat_map_flat_map.
  transitivity (flat_map (fun i => [nth i (ch_states c) EmptyString]) (seq 0 (length (ch_states c)))).
  - apply flat_map_ext_in. intros i Hi. apply in_seq in Hi. rewrite flat_map_map. cbn [fst].
    transitivity (flat_map (fun j => if Nat.eqb i j then [nth i (ch_states c) EmptyString] else []) (seq 0 (length (ch_states c)))).
    + apply flat_map_ext_in. intros j Hj. apply in_seq in Hj. rewrite string_eqb_nth by (auto; lia). reflexivity.
    + rewrite flat_map_pick. destruct (Nat.leb_spec 0 i), (Nat.ltb_spec i (0 + length (ch_states c))); cbn; auto; lia.
  - rewrite flat_map_single. apply map_nth_seq.
Qed.

Lemma pair_keys_entries c : pair_keys (ch_states c) (mc_entries c).
Proof.
  intros k v H. apply mc_entries_in in H. destruct H as (i & j & Hi & Hj & -> & _). eexists _, _. split; [reflexivity|]. split; apply nth_In; assumption.
Qed.
Lemma fill_entries n c : wf n n (ch_p c) -> length (ch_states c) = n -> NoDup (ch_states c) ->
  fill_mc (ch_states c) (mc_entries c) (nzeros n n) = Ok (map (map Fin) (ch_p c)).
Proof.
  intros HW HL HN. destruct (fill_ok (ch_states c) (mc_entries c) HN (pair_keys_entries c) (mc_entries_nodup c HN) (nzeros n n)) as (q & Eq & Sq & Gq); [rewrite HL; apply nzeros_shape|].
  rewrite HL in *. rewrite Eq. f_equal. apply (nmat_ext n n); [exact Sq|apply fin_shape; exact HW|]. intros i j Hi Hj. rewrite Gq by assumption. rewrite (fin_get n n) by assumption.
  assert (E : lookup (mc_entries c) [nth i (ch_states c) EmptyString; nth j (ch_states c) EmptyString] = Some (Fin (mget (ch_p c) i j))).
  { apply lookup_in; [apply mc_entries_nodup; exact HN|]. apply mc_entries_in. exists i, j. rewrite HL. auto. }
  rewrite E. reflexivity.
Qed.

Lemma chain_of_entries n c : accepted_chain n c -> chain_of_dict (mc_entries c) = Ok (as_object c).
Proof.
  intros (Hn & HW & HP & HS & (HL & HN & HB)). unfold chain_of_dict. rewrite mc_diagonal by exact HN. rewrite HL. replace (Nat.leb 2 n) with true by (symmetry; apply Nat.leb_le; exact Hn).
  rewrite (fill_entries n) by assumption. cbn [bind]. replace (rows_sum_to_one _) with true by (symmetry; apply (rows_sum_fin n n); assumption). reflexivity.
Qed.

(** validate_dictionary *)
Lemma v_dict_values_ok entries : (forall k v, In (k, v) entries -> exists x, v = PFloat x /\ prob01 x = true) ->
  v_dict_values entries = Ok (map (fun e => (as_key (fst e), as_float (snd e))) entries).
Proof.
  intros H. unfold v_dict_values. replace (forallb _ entries) with true; [|symmetry; apply forallb_forall; intros [k v] Hx; destruct (H k v Hx) as (x & -> & _); reflexivity].
  replace (forallb _ entries) with true; [reflexivity|symmetry; apply forallb_forall; intros [k v] Hx; destruct (H k v Hx) as (x & -> & Hp); exact Hp].
Qed.
Lemma prob01_fin x : prob01 (Fin x) = true <-> (0 <= x <= 1)%Qc.
Proof. unfold prob01. cbn. rewrite andb_true_iff, !Qcleb_le. reflexivity. Qed.
Lemma map_as_str l : map as_str (map PStr l) = l.
Proof. rewrite map_map. apply map_id. Qed.
Lemma py_dict_back d : map (fun e : pyval * pyval => (as_key (fst e), as_float (snd e))) (map (fun e : key * num => (PTuple (map PStr (fst e)), PFloat (snd e))) d) = d.
Proof. rewrite map_map. rewrite <- (map_id d) at 2. apply map_ext. intros [k v]. cbn. rewrite map_as_str. reflexivity. Qed.
Lemma py_dict_keys d : map (fun e : pyval * pyval => as_key (fst e)) (map (fun e : key * num => (PTuple (map PStr (fst e)), PFloat (snd e))) d) = map fst d.
Proof. rewrite map_map. apply map_ext. intros [k v]. cbn. apply map_as_str. Qed.

Lemma in_keys_iff k ks : in_keys k ks = true <-> In k ks.
Proof. unfold in_keys. rewrite existsb_exists. split; [intros (x & Hx & E); apply key_eqb_eq in E; subst; exact Hx|intros H; exists k; split; [exact H|apply key_eqb_refl]]. Qed.

Lemma v_dict_keys_ok len entries : entries <> [] ->
  forallb (fun e : pyval * pyval => match fst e with PTuple l => Nat.eqb (length l) len && forallb is_string l | _ => false end) entries = true ->
  v_dict_keys len (Some entries) = Ok entries.
Proof. intros H1 H2. unfold v_dict_keys. rewrite H2. destruct entries; [contradiction|reflexivity]. Qed.

Lemma v_dictionary_entries n c : accepted_chain n c -> v_dictionary_mc (py_dict (mc_entries c)) = Ok (mc_entries c).
Proof.
  intros (Hn & HW & HP & HS & (HL & HN & HB)). unfold v_dictionary_mc, py_dict.
  assert (Hne : mc_entries c <> []).
  { intros C. assert (H : In ([nth 0 (ch_states c) EmptyString; nth 0 (ch_states c) EmptyString], Fin (mget (ch_p c) 0 0)) (mc_entries c)) by (apply mc_entries_in; exists 0, 0; repeat split; lia). rewrite C in H. exact H. }
  assert (HK : forallb (fun e : pyval * pyval => match fst e with PTuple l => Nat.eqb (length l) 2 && forallb is_string l | _ => false end)
                 (map (fun e : key * num => (PTuple (map PStr (fst e)), PFloat (snd e))) (mc_entries c)) = true).
  { apply forallb_forall. intros x Hx. apply in_map_iff in Hx. destruct Hx as ((k & v) & <- & Hx). apply mc_entries_in in Hx. destruct Hx as (i & j & Hi & Hj & -> & _). cbn.
    rewrite !HB by (apply nth_In; assumption). reflexivity. }
  rewrite v_dict_keys_ok; [|intros C; apply Hne; destruct (mc_entries c); [reflexivity|discriminate C]|exact HK].
  cbn [bind]. rewrite py_dict_keys.

  assert (HA : forallb (fun a => forallb (fun b => in_keys [a; b] (map fst (mc_entries c))) (flat_map (fun k : key => [nth_s 0 k; nth_s 1 k]) (map fst (mc_entries c))))
                 (flat_map (fun k : key => [nth_s 0 k; nth_s 1 k]) (map fst (mc_entries c))) = true).
  { assert (HI : forall a, In a (flat_map (fun k : key => [nth_s 0 k; nth_s 1 k]) (map fst (mc_entries c))) -> exists i, i < length (ch_states c) /\ a = nth i (ch_states c) EmptyString).
    { intros a Ha. apply in_flat_map in Ha. destruct Ha as (k & Hk & Ha). apply in_map_iff in Hk. destruct Hk as ((k' & v) & <- & Hk). apply mc_entries_in in Hk. destruct Hk as (i & j & Hi & Hj & -> & _).
      cbn in Ha. destruct Ha as [<-|[<-|[]]]; eauto. }
    apply forallb_forall. intros a Ha. apply forallb_forall. intros b Hb. destruct (HI a Ha) as (i & Hi & ->), (HI b Hb) as (j & Hj & ->). apply in_keys_iff. apply in_map_iff.
    exists ([nth i (ch_states c) EmptyString; nth j (ch_states c) EmptyString], Fin (mget (ch_p c) i j)). split; [reflexivity|]. apply mc_entries_in. eauto 8. }
  rewrite HA. rewrite v_dict_values_ok; [rewrite py_dict_back; reflexivity|].
  intros k v H. apply in_map_iff in H. destruct H as ((k' & v') & E & H). inversion E; subst. apply mc_entries_in in H. destruct H as (i & j & Hi & Hj & -> & ->). cbn. eexists. split; [reflexivity|]. apply prob01_fin. apply HP; lia.
Qed.

Lemma dictionary_round_trip n c : accepted_chain n c -> from_dictionary (py_dict (to_dictionary c)) = Ok (as_object c).
Proof.
  intros H. assert (HN : NoDup (ch_states c)) by apply H. rewrite to_dictionary_entries by exact HN. unfold from_dictionary. rewrite (v_dictionary_entries n) by exact H. cbn [bind]. apply (chain_of_entries n). exact H.
Qed.
