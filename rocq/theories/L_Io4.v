(** L_Io4: hidden Markov models as dictionaries; CSV bodies. *)
From Verif Require Import S_Io L_Gen1 L_Valid2 L_Io1 L_Io3.
Open Scope nat_scope.
Open Scope res_scope.

Definition hmm_entries (o : hobj) : list (key * num) :=
  let s i := nth i (ho_states o) EmptyString in
  let y j := nth j (ho_symbols o) EmptyString in
  flat_map (fun i =>
    map (fun j => (["P"%string; s i; s j], Fin (mget (ho_p o) i j))) (seq 0 (length (ho_states o))) ++
    map (fun j => (["E"%string; s i; y j], Fin (mget (ho_e o) i j))) (seq 0 (length (ho_symbols o)))) (seq 0 (length (ho_states o))).
Lemma hmm_entries_in o k v : In (k, v) (hmm_entries o) <-> exists i j, i < length (ho_states o) /\
  ((j < length (ho_states o) /\ k = ["P"%string; nth i (ho_states o) EmptyString; nth j (ho_states o) EmptyString] /\ v = Fin (mget (ho_p o) i j))
   \/ (j < length (ho_symbols o) /\ k = ["E"%string; nth i (ho_states o) EmptyString; nth j (ho_symbols o) EmptyString] /\ v = Fin (mget (ho_e o) i j))).
Proof.
  unfold hmm_entries. rewrite in_flat_map. split.
  - intros (i & Hi & H). apply in_seq in Hi. apply in_app_iff in H. destruct H as [H|H]; apply in_map_iff in H; destruct H as (j & E & Hj); apply in_seq in Hj; inversion E; subst; exists i, j; (split; [lia|]); [left|right]; repeat split; lia.
  - intros (i & j & Hi & [(Hj & -> & ->)|(Hj & -> & ->)]); exists i; (split; [apply in_seq; lia|]); apply in_app_iff; [left|right]; apply in_map_iff; exists j; (split; [reflexivity|apply in_seq; lia]).
Qed.
Lemma hmm_entries_nodup o : NoDup (ho_states o) -> NoDup (ho_symbols o) -> NoDup (map fst (hmm_entries o)).
Proof.
  intros HN HM. unfold hmm_entries. rewrite map_flat_map. apply nodup_flat_map.
  - apply seq_NoDup.
  - intros i Hi. rewrite map_app, !map_map. apply nodup_app.
    + apply nodup_map_inj; [apply seq_NoDup|]. intros x y Hx Hy E. cbn in E. injection E as E. apply in_seq in Hx, Hy. apply nth_inj in E; auto; lia.
    + apply nodup_map_inj; [apply seq_NoDup|]. intros x y Hx Hy E. cbn in E. injection E as E. apply in_seq in Hx, Hy. apply nth_inj in E; auto; lia.
    + intros x Hx Hy. apply in_map_iff in Hx, Hy. destruct Hx as (a & <- & _), Hy as (b & E & _). discriminate.
  - intros i i' k Hi Hi' H1 H2. apply in_seq in Hi, Hi'. rewrite map_app, !map_map, in_app_iff in H1, H2. cbn [fst] in *.
    assert (Hs : nth i (ho_states o) EmptyString = nth i' (ho_states o) EmptyString).
    { destruct H1 as [H1|H1], H2 as [H2|H2]; apply in_map_iff in H1, H2; destruct H1 as (a & <- & _), H2 as (b & E & _); try discriminate; injection E as E _; auto. }
    apply nth_inj in Hs; auto; lia.
Qed.
Lemma hmm_to_dictionary_entries o : NoDup (ho_states o) -> NoDup (ho_symbols o) -> hmm_to_dictionary o = hmm_entries o.
Proof. intros HN HM. unfold hmm_to_dictionary. apply dict_of_nodup. apply hmm_entries_nodup; assumption. Qed.
Lemma flat_map_nil {A B} (l : list A) : flat_map (fun _ => @nil B) l = [].
Proof. induction l; auto. Qed.
Lemma hmm_diagonal_entries o : NoDup (ho_states o) -> hmm_diagonal (hmm_entries o) = ho_states o.
Proof.
  intros HN. unfold hmm_diagonal, hmm_entries. rewrite flat_map_flat_map.
  transitivity (flat_map (fun i => [nth i (ho_states o) EmptyString]) (seq 0 (length (ho_states o)))); [|rewrite flat_map_single; apply map_nth_seq].
  apply flat_map_ext_in. intros i Hi. apply in_seq in Hi. rewrite flat_map_app, !flat_map_map. cbn [fst String.eqb Ascii.eqb Bool.eqb andb]. rewrite flat_map_nil, app_nil_r.
  transitivity (flat_map (fun j => if Nat.eqb i j then [nth i (ho_states o) EmptyString] else []) (seq 0 (length (ho_states o)))).
  - apply flat_map_ext_in. intros j Hj. apply in_seq in Hj. rewrite string_eqb_nth by (auto; lia). reflexivity.
  - rewrite flat_map_pick. destruct (Nat.leb_spec 0 i), (Nat.ltb_spec i (0 + length (ho_states o))); cbn; auto; lia.
Qed.
Lemma hmm_symbols_entries o : NoDup (ho_states o) -> 0 < length (ho_states o) -> hmm_symbols_of (nth 0 (ho_states o) EmptyString) (hmm_entries o) = ho_symbols o.
Proof.
  intros HN H0. unfold hmm_symbols_of, hmm_entries. rewrite flat_map_flat_map.
  transitivity (flat_map (fun i => if Nat.eqb 0 i then ho_symbols o else []) (seq 0 (length (ho_states o)))).
  - apply flat_map_ext_in. intros i Hi. apply in_seq in Hi. rewrite flat_map_app, !flat_map_map. cbn [fst String.eqb Ascii.eqb Bool.eqb andb]. rewrite flat_map_nil. cbn [app].
    rewrite string_eqb_nth by (auto; lia). rewrite (Nat.eqb_sym i 0). destruct (Nat.eqb 0 i); [|apply flat_map_nil]. rewrite flat_map_single. apply map_nth_seq.
  - destruct (length (ho_states o)) as [|n]; [lia|]. cbn [seq flat_map Nat.eqb]. rewrite <- (app_nil_r (ho_symbols o)) at 2. f_equal. transitivity (flat_map (fun _ : nat => @nil string) (seq 1 n)); [|apply flat_map_nil]. apply flat_map_ext_in. intros i Hi. apply in_seq in Hi. destruct i; [lia|reflexivity].
Qed.

(** filling both matrices *)
Definition hmm_keys (states symbols : list string) (d : dict) : Prop := forall k v, In (k, v) d ->
  exists a b, In a states /\ ((k = ["P"%string; a; b] /\ In b states) \/ (k = ["E"%string; a; b] /\ In b symbols)).
Lemma fill_hmm_ok states symbols d : NoDup states -> NoDup symbols -> hmm_keys states symbols d -> NoDup (map fst d) ->
  forall p e, shape (length states) (length states) p -> shape (length states) (length symbols) e ->
  exists q f, fill_hmm states symbols d p e = Ok (q, f) /\ shape (length states) (length states) q /\ shape (length states) (length symbols) f /\
    (forall i j, i < length states -> j < length states ->
      nget q i j = match lookup d ["P"%string; nth i states EmptyString; nth j states EmptyString] with Some v => v | None => nget p i j end) /\
    (forall i j, i < length states -> j < length symbols ->
      nget f i j = match lookup d ["E"%string; nth i states EmptyString; nth j symbols EmptyString] with Some v => v | None => nget e i j end).
Proof.
  intros HN HM. induction d as [|[k v] d IH]; intros HK HD p e Hp He; [exists p, e; repeat split; auto; try apply Hp; apply He|].
  inversion HD as [|? ? Hd1 Hd2]; subst. assert (HK' : hmm_keys states symbols d) by (intros k' v' H; apply (HK k' v'); right; exact H).
  destruct (HK k v (or_introl eq_refl)) as (a & b & Ha & Hcase). apply in_nth in Ha. destruct Ha as (i0 & Hi0 & <-). cbn [map fst] in Hd1. destruct Hcase as [[-> Hb]|[-> Hb]]; apply in_nth in Hb; destruct Hb as (j0 & Hj0 & <-); cbn [fill_hmm].
  - change (String.eqb "P" "E") with false. cbv iota. rewrite !pos_nth by assumption. cbn [bind].
    destruct (IH HK' Hd2 (set2 i0 j0 v p) e (set2_shape _ _ _ _ _ _ Hp Hi0) He) as (q & f & Eq & Sq & Sf & Gq & Gf). exists q, f. split; [exact Eq|]. split; [exact Sq|]. split; [exact Sf|]. split.
    + intros i j Hi Hj. rewrite Gq by assumption. cbn [lookup]. destruct (key_eqb _ _) eqn:E.
      * apply key_eqb_eq in E. injection E as E1 E2. apply nth_inj in E1; auto. apply nth_inj in E2; auto. subst.
        replace (lookup d _) with (@None num) by (symmetry; apply lookup_none; exact Hd1). rewrite (set2_get (length states) (length states)) by assumption. rewrite !Nat.eqb_refl. reflexivity.
      * destruct (lookup d _) eqn:EL; [reflexivity|]. rewrite (set2_get (length states) (length states)) by assumption.
        destruct (Nat.eqb_spec i i0) as [->|]; [|reflexivity]. destruct (Nat.eqb_spec j j0) as [->|]; [|reflexivity]. cbn. rewrite key_eqb_refl in E. discriminate.
    + intros i j Hi Hj. rewrite Gf by assumption. cbn [lookup]. destruct (key_eqb _ _) eqn:E; [|reflexivity]. apply key_eqb_eq in E. discriminate.
  - change (String.eqb "E" "E") with true. cbv iota. rewrite !pos_nth by assumption. cbn [bind].
    destruct (IH HK' Hd2 p (set2 i0 j0 v e) Hp (set2_shape _ _ _ _ _ _ He Hi0)) as (q & f & Eq & Sq & Sf & Gq & Gf). exists q, f. split; [exact Eq|]. split; [exact Sq|]. split; [exact Sf|]. split.
    + intros i j Hi Hj. rewrite Gq by assumption. cbn [lookup]. destruct (key_eqb _ _) eqn:E; [|reflexivity]. apply key_eqb_eq in E. discriminate.
    + intros i j Hi Hj. rewrite Gf by assumption. cbn [lookup]. destruct (key_eqb _ _) eqn:E.
      * apply key_eqb_eq in E. injection E as E1 E2. apply nth_inj in E1; auto. apply nth_inj in E2; auto. subst.
        replace (lookup d _) with (@None num) by (symmetry; apply lookup_none; exact Hd1). rewrite (set2_get (length states) (length symbols)) by assumption. rewrite !Nat.eqb_refl. reflexivity.
      * destruct (lookup d _) eqn:EL; [reflexivity|]. rewrite (set2_get (length states) (length symbols)) by assumption.
        destruct (Nat.eqb_spec i i0) as [->|]; [|reflexivity]. destruct (Nat.eqb_spec j j0) as [->|]; [|reflexivity]. cbn. rewrite key_eqb_refl in E. discriminate.
Qed.
Lemma hmm_keys_entries o : hmm_keys (ho_states o) (ho_symbols o) (hmm_entries o).
Proof.
  intros k v H. apply hmm_entries_in in H. destruct H as (i & j & Hi & [(Hj & -> & _)|(Hj & -> & _)]); eexists _, _; (split; [apply nth_In; exact Hi|]); [left|right]; (split; [reflexivity|apply nth_In; exact Hj]).
Qed.
Lemma fill_hmm_entries n k o : wf n n (ho_p o) -> wf n k (ho_e o) -> length (ho_states o) = n -> length (ho_symbols o) = k -> NoDup (ho_states o) -> NoDup (ho_symbols o) ->
  fill_hmm (ho_states o) (ho_symbols o) (hmm_entries o) (nzeros n n) (nzeros n k) = Ok (map (map Fin) (ho_p o), map (map Fin) (ho_e o)).
Proof.
  intros HW HE HL HK HN HM. destruct (fill_hmm_ok (ho_states o) (ho_symbols o) (hmm_entries o) HN HM (hmm_keys_entries o) (hmm_entries_nodup o HN HM) (nzeros n n) (nzeros n k)) as (q & f & Eq & Sq & Sf & Gq & Gf); [rewrite HL; apply nzeros_shape|rewrite HL, HK; apply nzeros_shape|].
  rewrite HL, HK in *. rewrite Eq. f_equal. f_equal.
  - apply (nmat_ext n n); [exact Sq|apply fin_shape; exact HW|]. intros i j Hi Hj. rewrite Gq by assumption. rewrite (fin_get n n) by assumption.
    assert (E : lookup (hmm_entries o) ["P"%string; nth i (ho_states o) EmptyString; nth j (ho_states o) EmptyString] = Some (Fin (mget (ho_p o) i j))).
    { apply lookup_in; [apply hmm_entries_nodup; assumption|]. apply hmm_entries_in. exists i, j. rewrite HL. split; [exact Hi|]. left. auto. }
    rewrite E. reflexivity.
  - apply (nmat_ext n k); [exact Sf|apply fin_shape; exact HE|]. intros i j Hi Hj. rewrite Gf by assumption. rewrite (fin_get n k) by assumption.
    assert (E : lookup (hmm_entries o) ["E"%string; nth i (ho_states o) EmptyString; nth j (ho_symbols o) EmptyString] = Some (Fin (mget (ho_e o) i j))).
    { apply lookup_in; [apply hmm_entries_nodup; assumption|]. apply hmm_entries_in. exists i, j. rewrite HL, HK. split; [exact Hi|]. right. auto. }
    rewrite E. reflexivity.
Qed.
Lemma hmm_of_entries n k o : accepted_hmm n k o -> hmm_of_dict (hmm_entries o) = Ok (as_hmm_object o).
Proof.
  intros (Hn & Hk & HW & _ & HS & HE & _ & HT & (HL & HN & _) & (HK & HM & _) & _). unfold hmm_of_dict. rewrite hmm_diagonal_entries by exact HN. rewrite hmm_symbols_entries by (auto; lia). rewrite HL, HK.
  replace (Nat.leb 2 n) with true by (symmetry; apply Nat.leb_le; exact Hn). replace (Nat.leb 2 k) with true by (symmetry; apply Nat.leb_le; exact Hk).
  rewrite (fill_hmm_entries n k) by assumption. cbn [bind fst snd]. replace (rows_sum_to_one (map (map Fin) (ho_p o))) with true by (symmetry; apply (rows_sum_fin n n); assumption).
  replace (rows_sum_to_one (map (map Fin) (ho_e o))) with true by (symmetry; apply (rows_sum_fin n k); assumption). reflexivity.
Qed.
Lemma v_hmm_intro entries ks : v_dict_keys 3 (Some entries) = Ok entries -> map (fun e : pyval * pyval => as_key (fst e)) entries = ks ->
  forallb (fun k => existsb (String.eqb (nth_s 0 k)) ["P"; "E"]%string) ks = true ->
  let firsts := flat_map (fun k => nth_s 1 k :: (if String.eqb (nth_s 0 k) "P" then [nth_s 2 k] else [])) ks in
  let seconds := flat_map (fun k => if String.eqb (nth_s 0 k) "E" then [nth_s 2 k] else []) ks in
  forallb (fun a => forallb (fun b => in_keys ["P"%string; a; b] ks) firsts) firsts = true ->
  forallb (fun a => forallb (fun b => in_keys ["E"%string; a; b] ks) seconds) firsts = true ->
  v_dictionary_hmm (Some entries) = v_dict_values entries.
Proof. intros H1 <- H2 firsts seconds H3 H4. unfold v_dictionary_hmm. rewrite H1. cbn [bind]. rewrite H2. cbv iota. fold firsts. fold seconds. rewrite H3, H4. reflexivity. Qed.
Lemma hmm_dictionary_round_trip n k o : accepted_hmm n k o -> hmm_from_dictionary (py_dict (hmm_to_dictionary o)) = Ok (as_hmm_object o).
Proof.
  intros HA. pose proof HA as (Hn & Hk & HW & HP & HS & HE & HQ & HT & (HL & HN & HB) & (HK & HM & HC) & _). rewrite hmm_to_dictionary_entries by assumption. unfold hmm_from_dictionary, py_dict.
  assert (Hentry : forall kk v, In (kk, v) (hmm_entries o) -> length kk = 3 /\ forallb nonblank kk = true).
  { intros kk v H. apply hmm_entries_in in H. destruct H as (i & j & Hi & [(Hj & -> & _)|(Hj & -> & _)]); (split; [reflexivity|]); cbn [forallb]; rewrite (HB (nth i (ho_states o) EmptyString)) by (apply nth_In; lia); [rewrite (HB (nth j (ho_states o) EmptyString)) by (apply nth_In; lia)|rewrite (HC (nth j (ho_symbols o) EmptyString)) by (apply nth_In; lia)]; reflexivity. }
  set (ks := map fst (hmm_entries o)).
  assert (HKs : forall kk, In kk ks <-> exists i j, i < n /\ ((j < n /\ kk = ["P"%string; nth i (ho_states o) EmptyString; nth j (ho_states o) EmptyString]) \/ (j < k /\ kk = ["E"%string; nth i (ho_states o) EmptyString; nth j (ho_symbols o) EmptyString]))).
  { intros kk. unfold ks. rewrite in_map_iff. split.
    - intros ([kk' v] & <- & H). apply hmm_entries_in in H. rewrite HL, HK in H. destruct H as (i & j & Hi & [(Hj & -> & _)|(Hj & -> & _)]); exists i, j; (split; [exact Hi|]); [left|right]; auto.
    - intros (i & j & Hi & [(Hj & ->)|(Hj & ->)]); eexists (_, _); (split; [reflexivity|]); apply hmm_entries_in; exists i, j; rewrite HL, HK; (split; [exact Hi|]); [left|right]; auto. }
  set (firsts := flat_map (fun k0 => nth_s 1 k0 :: (if String.eqb (nth_s 0 k0) "P" then [nth_s 2 k0] else [])) ks). set (seconds := flat_map (fun k0 => if String.eqb (nth_s 0 k0) "E" then [nth_s 2 k0] else []) ks).
  assert (HF : forall a, In a firsts -> exists i, i < n /\ a = nth i (ho_states o) EmptyString).
  { intros a Ha. apply in_flat_map in Ha. destruct Ha as (kk & Hkk & Ha). apply HKs in Hkk. destruct Hkk as (i & j & Hi & [(Hj & ->)|(Hj & ->)]); cbn in Ha; [destruct Ha as [<-|[<-|[]]]|destruct Ha as [<-|[]]]; eauto. }
  assert (HG : forall a, In a seconds -> exists j, j < k /\ a = nth j (ho_symbols o) EmptyString).
  { intros a Ha. apply in_flat_map in Ha. destruct Ha as (kk & Hkk & Ha). apply HKs in Hkk. destruct Hkk as (i & j & Hi & [(Hj & ->)|(Hj & ->)]); cbn in Ha; [destruct Ha|destruct Ha as [<-|[]]]; eauto. }
  rewrite (v_hmm_intro _ ks).
  - rewrite v_dict_values_ok.
    + rewrite py_dict_back. cbn [bind]. apply (hmm_of_entries n k). exact HA.
    + intros kk v H. apply in_map_iff in H. destruct H as ((k' & v') & E' & H). inversion E'; subst kk v. apply hmm_entries_in in H. rewrite HL, HK in H. cbn [snd]. destruct H as (i & j & Hi & [(Hj & -> & ->)|(Hj & -> & ->)]); eexists; (split; [reflexivity|]); apply prob01_fin; [apply HP|apply HQ]; assumption.
  - apply v_dict_keys_ok.
    + intros C. apply map_eq_nil in C. assert (H : In (["P"%string; nth 0 (ho_states o) EmptyString; nth 0 (ho_states o) EmptyString], Fin (mget (ho_p o) 0 0)) (hmm_entries o)) by (apply hmm_entries_in; exists 0, 0; split; [lia|left; repeat split; lia]). rewrite C in H. exact H.
    + apply forallb_forall. intros x Hx. apply in_map_iff in Hx. destruct Hx as ((kk & v) & <- & Hx). cbn [fst]. destruct (Hentry kk v Hx) as [H1 H2]. rewrite map_length, H1. cbn [Nat.eqb andb]. rewrite <- H2. clear. induction kk as [|s kk IH]; [reflexivity|]. cbn. rewrite IH. reflexivity.
  - apply py_dict_keys.
  - apply forallb_forall; intros kk Hkk; apply HKs in Hkk; destruct Hkk as (i & j & Hi & [(Hj & ->)|(Hj & ->)]); reflexivity.
  - fold firsts. apply forallb_forall. intros a Ha. apply forallb_forall. intros b Hb. destruct (HF a Ha) as (i & Hi & ->), (HF b Hb) as (j & Hj & ->). apply in_keys_iff. apply HKs. exists i, j. auto.
  - fold firsts. fold seconds. apply forallb_forall. intros a Ha. apply forallb_forall. intros b Hb. destruct (HF a Ha) as (i & Hi & ->), (HG b Hb) as (j & Hj & ->). apply in_keys_iff. apply HKs. exists i, j. auto.
Qed.

(** ** CSV bodies *)
Lemma nodup_front {A} (l m : list A) : NoDup (l ++ m) -> NoDup l.
Proof. induction l as [|x l IH]; intros H; [constructor|]. inversion H as [|? ? H1 H2]; subst. constructor; [intros C; apply H1; apply in_app_iff; left; exact C|apply IH; exact H2]. Qed.
Section Body.
Variable show : num -> text.
Variable float : text -> option num.
Definition table (keys : string -> list key) (states : list string) (vals : list (list num)) : dict :=
  flat_map (fun sv => combine (keys (fst sv)) (snd sv)) (combine states vals).
Lemma csv_cells_ok ks vs : length ks = length vs -> (forall v, In v vs -> float (show v) = Some v) -> forall d0, NoDup (map fst (d0 ++ combine ks vs)) ->
  csv_cells float ks (map show vs) d0 = Ok (d0 ++ combine ks vs).
Proof.
  revert vs; induction ks as [|k ks IH]; intros [|v vs] HL H d0 HN; try discriminate; [rewrite app_nil_r; reflexivity|]. cbn [map csv_cells combine] in *. rewrite (H v (or_introl eq_refl)).
  rewrite map_app in HN. cbn in HN. rewrite dict_set_absent; [|intros C; apply NoDup_remove_2 in HN; apply HN; rewrite in_app_iff; left; exact C].
  rewrite IH; [rewrite <- app_assoc; reflexivity|cbn in HL; lia|intros x Hx; apply H; right; exact Hx|]. rewrite <- app_assoc, map_app. exact HN.
Qed.
Lemma csv_body_ok keys states vals : length states = length vals -> (forall s r, In (s, r) (combine states vals) -> length r = length (keys s)) ->
  (forall r v, In r vals -> In v r -> float (show v) = Some v /\ show v <> []) -> forall d0, NoDup (map fst (d0 ++ table keys states vals)) ->
  csv_body float keys states (map (map show) vals) d0 = Ok (d0 ++ table keys states vals).
Proof.
  revert vals; induction states as [|s states IH]; intros [|r vals] HL HR HV d0 HN; try discriminate; [rewrite app_nil_r; reflexivity|]. cbn [map csv_body]. unfold table in *. cbn [combine flat_map fst snd] in *.
  assert (Hlen : length r = length (keys s)) by (apply HR; left; reflexivity). rewrite map_length, Hlen, Nat.eqb_refl.
  replace (forallb nonempty (map show r)) with true.
  2: { symmetry. apply forallb_forall. intros w Hw. apply in_map_iff in Hw. destruct Hw as (v & <- & Hv). destruct (HV r v (or_introl eq_refl) Hv) as [_ Hne]. unfold nonempty. destruct (show v); [contradiction|reflexivity]. }
  cbn [andb]. rewrite csv_cells_ok.
  - cbn [bind]. rewrite IH; [rewrite <- app_assoc; reflexivity|cbn in HL; lia|intros s' r' H'; apply HR; right; exact H'|intros r' v Hr; apply HV; right; exact Hr|]. rewrite <- app_assoc. exact HN.
  - congruence.
  - intros v Hv. apply (HV r v (or_introl eq_refl) Hv).
  - rewrite app_assoc, map_app in HN. exact (nodup_front _ _ HN).
Qed.
Lemma combine_map {A B C} (f : A -> B) (g : A -> C) l : combine (map f l) (map g l) = map (fun x => (f x, g x)) l.
Proof. induction l as [|x l IH]; [reflexivity|]. cbn. rewrite IH. reflexivity. Qed.
Lemma combine_app {A B} (l1 l2 : list A) (m1 m2 : list B) : length l1 = length m1 -> combine (l1 ++ l2) (m1 ++ m2) = combine l1 m1 ++ combine l2 m2.
Proof. revert m1; induction l1 as [|x l1 IH]; intros [|y m1] H; try discriminate; [reflexivity|]. cbn. rewrite IH by (cbn in H; lia). reflexivity. Qed.

Lemma rows_tab n m (P : mat) : wf n m P -> map (map Fin) P = map (fun i => map (fun j => Fin (mget P i j)) (seq 0 m)) (seq 0 n).
Proof.
  intros H. apply (nmat_ext n m); [apply fin_shape; exact H|split; [rewrite map_length, seq_length; reflexivity|]|].
  - intros r Hr. apply in_map_iff in Hr. destruct Hr as (i & <- & _). rewrite map_length, seq_length. reflexivity.
  - intros i j Hi Hj. rewrite (fin_get n m) by assumption. unfold nget. rewrite (nth_indep _ [] (map (fun j => Fin (mget P 0 j)) (seq 0 m))) by (rewrite map_length, seq_length; exact Hi).
    rewrite (map_nth (fun i => map (fun j => Fin (mget P i j)) (seq 0 m))). rewrite seq_nth by exact Hi. cbn [plus].
    rewrite (nth_indep _ NaN (Fin (mget P i 0))) by (rewrite map_length, seq_length; exact Hj). rewrite (map_nth (fun j => Fin (mget P i j))). rewrite seq_nth by exact Hj. reflexivity.
Qed.
Lemma flat_map_concat_comb {A} (f : nat -> A) (g : nat -> list num) (h : A -> list num -> dict) n :
  flat_map (fun sv => h (fst sv) (snd sv)) (combine (map f (seq 0 n)) (map g (seq 0 n))) = flat_map (fun i => h (f i) (g i)) (seq 0 n).
Proof. rewrite combine_map, flat_map_map. reflexivity. Qed.

Lemma mc_table n c : wf n n (ch_p c) -> length (ch_states c) = n ->
  table (fun s => map (fun s' => [s; s']) (ch_states c)) (ch_states c) (map (map Fin) (ch_p c)) = mc_entries c.
Proof.
  intros HW HL. unfold table, mc_entries. rewrite (rows_tab n n) by exact HW. rewrite HL. 
  transitivity (flat_map (fun sv : string * list num => combine (map (fun s' => [fst sv; s']) (ch_states c)) (snd sv)) (combine (map (fun i => nth i (ch_states c) EmptyString) (seq 0 n)) (map (fun i => map (fun j => Fin (mget (ch_p c) i j)) (seq 0 n)) (seq 0 n)))).
  { rewrite <- HL at 2. rewrite map_nth_seq. reflexivity. }
  rewrite (flat_map_concat_comb (fun i => nth i (ch_states c) EmptyString) _ (fun s vs => combine (map (fun s' => [s; s']) (ch_states c)) vs)).
  apply flat_map_ext_in. intros i Hi. transitivity (combine (map (fun j => [nth i (ch_states c) EmptyString; nth j (ch_states c) EmptyString]) (seq 0 n)) (map (fun j => Fin (mget (ch_p c) i j)) (seq 0 n))).
  - f_equal. rewrite <- (map_nth_seq (ch_states c)) at 1. rewrite HL, map_map. reflexivity.
  - apply combine_map.
Qed.
Definition hmm_labels (o : hobj) : list (string * string) := map (fun s => ("P"%string, s)) (ho_states o) ++ map (fun s => ("E"%string, s)) (ho_symbols o).
Lemma hmm_table n k o : wf n n (ho_p o) -> wf n k (ho_e o) -> length (ho_states o) = n -> length (ho_symbols o) = k ->
  table (fun s => map (fun l => [fst l; s; snd l]) (hmm_labels o)) (ho_states o)
        (map (fun i => nth i (map (map Fin) (ho_p o)) [] ++ nth i (map (map Fin) (ho_e o)) []) (seq 0 n)) = hmm_entries o.
Proof.
  intros HW HE HL HK. unfold table, hmm_entries. rewrite HL, HK.
  transitivity (flat_map (fun sv : string * list num => combine (map (fun l => [fst l; fst sv; snd l]) (hmm_labels o)) (snd sv)) (combine (map (fun i => nth i (ho_states o) EmptyString) (seq 0 n)) (map (fun i => nth i (map (map Fin) (ho_p o)) [] ++ nth i (map (map Fin) (ho_e o)) []) (seq 0 n)))).
  { rewrite <- HL at 2. rewrite map_nth_seq. reflexivity. }
  rewrite (flat_map_concat_comb (fun i => nth i (ho_states o) EmptyString) _ (fun s vs => combine (map (fun l => [fst l; s; snd l]) (hmm_labels o)) vs)).
  apply flat_map_ext_in. intros i Hi. apply in_seq in Hi.
  assert (HR : forall m (P : mat), wf n m P -> nth i (map (map Fin) P) [] = map (fun j => Fin (mget P i j)) (seq 0 m)).
  { intros m P HP. rewrite (rows_tab n m) by exact HP. rewrite (nth_indep _ [] (map (fun j => Fin (mget P 0 j)) (seq 0 m))) by (rewrite map_length, seq_length; lia). rewrite (map_nth (fun i => map (fun j => Fin (mget P i j)) (seq 0 m))). rewrite seq_nth by lia. reflexivity. }
  rewrite (HR n), (HR k) by assumption. unfold hmm_labels. rewrite map_app, !map_map. cbn [fst snd]. rewrite combine_app by (rewrite !map_length, seq_length; exact HL). f_equal.
  - rewrite <- (map_nth_seq (ho_states o)) at 1. rewrite HL, map_map. apply combine_map.
  - rewrite <- (map_nth_seq (ho_symbols o)) at 1. rewrite HK, map_map. apply combine_map.
Qed.
End Body.
