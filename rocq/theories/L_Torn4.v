(** L_Torn4: files of chains cut short. *)
From Verif Require Import S_Disk L_Gen1 L_Valid2 L_Io1 L_Io3 L_Io4 L_Json L_Xml L_Files L_Torn L_Torn2 L_Torn3.
Open Scope nat_scope.
Open Scope res_scope.

Lemma last_suffix {A} (d : A) p q t x : q <> [] -> p ++ q = t ++ [x] -> last q d = x.
Proof. intros Hq E. destruct (exists_last Hq) as (q' & y & ->). rewrite app_assoc in E. apply app_inj_tail in E. rewrite last_last. apply E. Qed.

Section Docs.
Variable show : num -> text.
Variable float : text -> option num.
Lemma json_torn ps d p : json_params ps -> d <> [] -> (forall e, In e d -> json_entry show float ps e) -> cut_short p (write_json show ps d) -> exists e, read_json float ps p = Err e.
Proof.
  intros HP Hne HE (q & Hq & E). symmetry in E.
  assert (HPr : ~ In cr (write_json show ps d)).
  { rewrite (write_json_mvs show) by (intros e He; apply (HE e He)). intros C.
    assert (HPr : printable (json_array (map (fun o => json_object (map fst o)) (map (entry_mvs show ps) d)))).
    { unfold json_array. apply printable_cons; [cbn; lia|]. apply printable_app; [|apply printable_cons; [cbn; lia|apply printable_nil]]. apply printable_join; [apply printable_cons; [cbn; lia|apply printable_cons; [cbn; lia|apply printable_nil]]|]. intros x Hx. rewrite map_map in Hx. apply in_map_iff in Hx. destruct Hx as (e & <- & He). apply printable_simple. apply (entry_good show float ps e HP (HE e He)). }
    apply HPr in C. cbn in C. lia. }
  assert (HL : exists v, json_load (write_json show ps d) = Ok v).
  { rewrite (write_json_mvs show) by (intros e He; apply (HE e He)). rewrite parse_array_ok; [eexists; reflexivity|intros C; apply map_eq_nil in C; contradiction|intros o Ho; apply in_map_iff in Ho; destruct Ho as (e & <- & He); apply (entry_good show float); auto]. }
  destruct HL as (v & HL). unfold read_json. rewrite universal_id by (intros C; apply HPr; rewrite <- E; apply in_app_iff; left; exact C).
  rewrite <- E in HL. destruct (json_cut p q v) as (e & He); [rewrite E; unfold write_json, json_array; eexists; reflexivity|exact HL|exact Hq| |rewrite He; exists e; reflexivity].
  unfold write_json, json_array in E. match type of E with _ = ?a :: ?b ++ [?x] => change (a :: b ++ [x]) with ((a :: b) ++ [x]) in E end. rewrite (last_suffix _ _ _ _ _ Hq E). reflexivity.
Qed.
Lemma doc_cr root items : known root -> (forall a, In a items -> attrs_ok a) -> ~ In cr (xml_head ++ "<"%char :: root ++ ">"%char :: lf :: concat (map item2 items) ++ xml_end root).
Proof.
  intros HR HA. assert (HB2 : ~ In cr (concat (map item2 items) ++ xml_end root)).
  { apply not_in_app; [|destruct HR as [->| ->]; cbn; intuition discriminate]. intros C. pose proof (items_prop (fun c => c <> cr) items) as HPr. apply HPr in C; [congruence| |].
    - intros a kv c Ha Hkv Hc ->. destruct (HA a Ha) as (_ & HT'). exact (attr_cr kv (HT' kv Hkv) Hc).
    - intros c Hc. cbn in Hc. intros ->. intuition discriminate. }
  apply not_in_app; [cbn; intuition discriminate|]. apply not_in_cons; [discriminate|]. apply not_in_app; [destruct HR as [->| ->]; cbn; intuition discriminate|]. apply not_in_cons; [discriminate|]. apply not_in_cons; [discriminate|exact HB2].
Qed.
Lemma doc_last root items : exists t, xml_head ++ "<"%char :: root ++ ">"%char :: lf :: concat (map item2 items) ++ xml_end root = t ++ [">"%char].
Proof.
  generalize xml_head. intros h. generalize (concat (map item2 items)). intros b. unfold xml_end. exists (h ++ "<"%char :: root ++ ">"%char :: lf :: b ++ chars "</" ++ root). rewrite <- !app_assoc. cbn [app]. rewrite <- !app_assoc. cbn [app]. rewrite <- !app_assoc. reflexivity.
Qed.
Lemma doc_cut root items p q : known root -> (forall a, In a items -> attrs_ok a /\ NoDup (map fst a) /\ forall kv, In kv a -> legal (snd kv)) -> q <> [] ->
  p ++ q = xml_head ++ "<"%char :: root ++ ">"%char :: lf :: concat (map item2 items) ++ xml_end root -> exists e, xml_load p = Err e.
Proof.
  intros HR HA Hq E. pose proof (load_ok root items HR HA) as HL. rewrite <- E in HL. destruct (doc_last root items) as (t & Ht).
  apply (xml_cut root _ p q _ HR (doc_cr root items HR (fun a Ha => proj1 (HA a Ha))) E HL Hq). rewrite Ht in E. rewrite (last_suffix _ _ _ _ _ Hq E). reflexivity.
Qed.
Lemma xml_refuse root ps p e : xml_load p = Err e -> exists e', read_xml float root ps p = Err e'.
Proof. intros He. unfold read_xml. rewrite He. destruct e; eexists; reflexivity. Qed.
Lemma xml_written root ps d : known root -> d <> [] -> (forall a, In a (map (xml_attrs show ps) d) -> attrs_ok a) ->
  write_xml show root ps d = xml_head ++ "<"%char :: root ++ ">"%char :: lf :: concat (map item2 (map (xml_attrs show ps) d)) ++ xml_end root.
Proof. intros HR Hne HA. unfold write_xml. apply layout; [exact HR|intros C; apply map_eq_nil in C; contradiction|exact HA]. Qed.
Lemma xml_torn root ps d p : known root -> tame_params ps -> json_params ps -> d <> [] -> (forall e, In e d -> xml_entry show float ps e) -> cut_short p (write_xml show root ps d) -> exists e, read_xml float root ps p = Err e.
Proof.
  intros HR HT HP Hne HE (q & Hq & E).
  assert (HA : forall a, In a (map (xml_attrs show ps) d) -> attrs_ok a /\ NoDup (map fst a) /\ forall kv, In kv a -> legal (snd kv)).
  { intros a Ha. apply in_map_iff in Ha. destruct Ha as (e & <- & He). apply (xml_attrs_good show float); auto. }
  rewrite (xml_written root ps d HR Hne (fun a Ha => proj1 (HA a Ha))) in E. symmetry in E.
  destruct (doc_cut root _ p q HR HA Hq E) as (e & He). exact (xml_refuse root ps p e He).
Qed.
End Docs.

Section Chain.
Variable show : num -> text.
Variable float : text -> option num.
Variable limit : nat.
Variable nul_ok : bool.
Variable n : nat.
Variable c : chain.
Hypothesis HA : accepted_chain n c.
Hypothesis HP : prints show float n n (ch_p c).

Lemma entries_good : (forall s, In s (ch_states c) -> spaceless s) -> forall e, In e (mc_entries c) -> good_entry show float params_mc e.
Proof.
  intros HS. destruct HA as (Hn & HW & Hpr & Hst & (HL & HN & HB)).
  intros [k v] H. apply mc_entries_in in H. destruct H as (i & j & Hi & Hj & -> & ->). rewrite HL in Hi, Hj. destruct (HP i j Hi Hj) as [HD HV].
  assert (Hs : forall i, i < n -> solid (chars (nth i (ch_states c) EmptyString))).
  { intros x Hx. assert (Hin : In (nth x (ch_states c) EmptyString) (ch_states c)) by (apply nth_In; lia). apply spaceless_solid; [apply HS; exact Hin|apply nonblank_ne; apply HB; exact Hin]. }
  split; [|split; [exact HV|apply decimal_solid; exact HD]]. cbn [fst]. unfold fits, params_mc. constructor; [|constructor; [|constructor]]; (split; [reflexivity|apply Hs; assumption]).
Qed.
Lemma entries_nodup : NoDup (map fst (mc_entries c)).
Proof. destruct HA as (Hn & HW & Hpr & Hst & (HL & HN & HB)). apply mc_entries_nodup. exact HN. Qed.
Lemma entries_length : length (mc_entries c) = S (length (entries_init c)).
Proof. rewrite entries_split by (apply (accepted_ne n); exact HA). rewrite app_length. cbn [length]. lia. Qed.
Lemma torn_txt p o : (forall s, In s (ch_states c) -> spaceless s) -> cut_short p (write_txt show (mc_entries c)) -> from_file float limit nul_ok Txt p = Ok o -> nearly_chain n c o.
Proof.
  intros HS HC H. unfold from_file in H. destruct (nonempty p); [|discriminate]. apply bind_inv in H. destruct H as (d' & H1 & H2). cbn [read_file] in H1.
  destruct (txt_cut show float params_mc (mc_entries c) p d' (entries_good HS) entries_nodup HC H1) as (k & Hk & [->|(e & x & v' & v'' & He & -> & _ & _ & _)]); rewrite entries_length in Hk.
  - destruct (short_dict n c (firstn k (mc_entries c)) k HA eq_refl) as (e & E); [lia|]. congruence.
  - destruct (Nat.eq_dec k (length (entries_init c))) as [->|Hne].
    + rewrite entries_split in H2, He by (apply (accepted_ne n); exact HA). rewrite nth_error_app2, Nat.sub_diag in He by lia. injection He as <-. cbn [fst] in H2. rewrite firstn_app, Nat.sub_diag, firstn_all in H2. cbn [firstn] in H2. rewrite app_nil_r in H2. exact (last_dict n c _ x o HA eq_refl H2).
    + exfalso. destruct (short_dict n c (firstn k (mc_entries c) ++ [(fst e, x)]) (S k) HA) as (ex & E); [|lia|congruence].
      rewrite map_app. cbn [map fst]. clear - He. revert k He. generalize (mc_entries c). induction l as [|y l IH]; intros [|k] He; try discriminate; cbn [nth_error firstn map app fst] in *; [injection He as <-; reflexivity|]. f_equal. apply (IH k He).
Qed.
Lemma special_decimal w : decimal w -> existsb special w = false.
Proof.
  intros HD. destruct (existsb special w) eqn:E; [|reflexivity]. apply existsb_exists in E. destruct E as (x & Hx & E). destruct (decimal_chars w x HD Hx) as (H1 & _ & H2 & H3 & _). unfold special in E. rewrite !orb_true_iff in E.
  destruct E as [[[E|E]|E]|E]; apply Ascii.eqb_eq in E; subst x; try contradiction; discriminate.
Qed.
Lemma matrix_values r v : In r (map (map Fin) (ch_p c)) -> In v r -> exists i j, i < n /\ j < n /\ v = Fin (mget (ch_p c) i j).
Proof.
  destruct HA as (Hn & HW & _). intros Hr Hv. rewrite (rows_tab n n) in Hr by exact HW. apply in_map_iff in Hr. destruct Hr as (i & <- & Hi). apply in_map_iff in Hv. destruct Hv as (j & <- & Hj). apply in_seq in Hi, Hj. exists i, j. repeat split; lia.
Qed.
Lemma matrix_rows r : In r (map (map Fin) (ch_p c)) -> length r = n.
Proof. destruct HA as (Hn & HW & _). intros Hr. apply (proj2 (fin_shape n n _ HW)). exact Hr. Qed.
Lemma empty_chain o : chain_of_dict [] = Ok o -> False.
Proof. intros H. discriminate. Qed.
Lemma torn_csv p o : short show limit n n (ch_p c) -> (forall s, In s (ch_states c) -> length (chars s) <= limit /\ (nul_ok = true \/ no_nul s)) ->
  cut_short p (csv_write (map chars (ch_states c) :: map (map show) (map (map Fin) (ch_p c)))) -> from_file float limit nul_ok Csv p = Ok o -> nearly_chain n c o.
Proof.
  intros HSh HS HC H. unfold from_file in H. destruct (nonempty p); [|discriminate]. apply bind_inv in H. destruct H as (d' & H1 & H2). cbn [read_file] in H1. unfold read_csv_mc in H1. apply bind_inv in H1. destruct H1 as (R & HR & H1).
  destruct HA as (Hn & HW & Hpr & Hst & (HL & HN & HB)). pose proof HW as [HWl _].
  assert (Hne : forall s, In s (ch_states c) -> chars s <> []) by (intros s Hs; apply HB in Hs; destruct s; [discriminate Hs|discriminate]).
  destruct (csv_cut limit nul_ok (map chars (ch_states c)) (map (map show) (map (map Fin) (ch_p c))) p R) as [L|(rows & -> & [L|(j & w' & w'' & Hj & Hw & Hrows)])]; auto.
  - split; [destruct (ch_states c); [cbn in HL; lia|discriminate]|]. intros w Hw. apply in_map_iff in Hw. destruct Hw as (s & <- & Hs). destruct (HS s Hs) as [A1 A2]. split; [apply Hne; exact Hs|]. split; [exact A1|exact A2].
  - destruct (ch_p c); [cbn in HWl; lia|discriminate].
  - intros ws Hws. apply in_map_iff in Hws. destruct Hws as (r & <- & Hr). pose proof (matrix_rows r Hr) as Hlr. split.
    + split; [destruct r; [cbn in Hlr; lia|discriminate]|]. intros w Hw. apply in_map_iff in Hw. destruct Hw as (v & <- & Hv). destruct (matrix_values r v Hr Hv) as (i & j & Hi & Hj & ->). apply csv_ok_decimal; [apply HP; assumption|apply HSh; assumption].
    + intros w Hw. apply in_map_iff in Hw. destruct Hw as (v & <- & Hv). destruct (matrix_values r v Hr Hv) as (i & j & Hi & Hj & ->). destruct (HP i j Hi Hj) as [HD _]. split; [apply decimal_ne; exact HD|]. split; [apply HSh; assumption|apply special_decimal; exact HD].
  - exfalso. destruct R as [|h R]; [injection H1 as <-; exact (empty_chain o H2)|]. destruct R; [|cbn in L; lia]. destruct (forallb nonempty h); [|discriminate]. cbv zeta in H1. destruct (nodupb _ _); [|discriminate]. destruct h; [|discriminate]. injection H1 as <-. exact (empty_chain o H2).
  - exfalso. cbv zeta in H1. destruct (forallb nonempty _); [|discriminate]. destruct (nodupb _ _); [|discriminate]. rewrite !map_length in H1. rewrite !map_length in L. destruct (Nat.eqb_spec (length (ch_states c)) (length rows)); [lia|discriminate].
  - cbv zeta in H1. destruct (forallb nonempty _); [|discriminate]. replace (map str (map chars (ch_states c))) with (ch_states c) in H1 by (rewrite map_map; symmetry; rewrite <- (map_id (ch_states c)) at 2; apply map_ext; intros s; apply str_chars).
    destruct (nodupb _ _); [|discriminate]. destruct (Nat.eqb _ _); [|discriminate].
    destruct (@exists_last _ (ch_states c)) as (S1 & s & ES); [destruct (ch_states c); [cbn in HL; lia|discriminate]|].
    destruct (@exists_last _ (map (map Fin) (ch_p c))) as (V1 & r & EV); [destruct (ch_p c); [cbn in HWl; lia|discriminate]|].
    assert (Hr : In r (map (map Fin) (ch_p c))) by (rewrite EV; apply in_app_iff; right; left; reflexivity). pose proof (matrix_rows r Hr) as Hlr.
    destruct (@exists_last _ r) as (r1 & v & Er); [destruct r; [cbn in Hlr; lia|discriminate]|].
    assert (HLv : length S1 = length V1). { pose proof (f_equal (@length _) ES) as A1. pose proof (f_equal (@length _) EV) as A2. rewrite map_length, app_length in A2. rewrite app_length in A1. cbn [length] in A1, A2. lia. }
    rewrite EV, Er in Hrows, Hj. rewrite map_app in Hrows, Hj. cbn [map] in Hrows, Hj. rewrite removelast_last, last_last in Hrows. rewrite last_last, map_length in Hj. rewrite Hrows in H1.
    pose proof (mc_table n c HW HL) as HT.
    assert (HN' := mc_entries_nodup c HN). rewrite <- HT in HN'.
    set (keys := fun s0 : string => map (fun s' : string => [s0; s']) (ch_states c)) in *. rewrite ES in H1 at 1. rewrite ES, EV, Er in HT, HN'.
    assert (Hkl : forall s0, length (keys s0) = n) by (intros s0; unfold keys; rewrite map_length; exact HL).
    destruct (body_cut show float keys S1 s V1 r1 v j w' d' HLv) as (init & k & x & E1 & E2 & _); auto.
    + intros s' r' H'. apply in_combine_r in H'. rewrite Hkl. apply matrix_rows. rewrite EV. apply in_app_iff. left. exact H'.
    + rewrite Hkl. rewrite Er, app_length in Hlr. cbn [length] in Hlr. lia.
    + intros r' x Hr' Hx. rewrite <- Er, <- EV in Hr'. destruct (matrix_values r' x Hr' Hx) as (a & b & Ha & Hb & ->). destruct (HP a b Ha Hb) as [HD HSv]. split; [exact HSv|apply decimal_ne; exact HD].
    + assert (E3 : init ++ [(k, v)] = entries_init c ++ [(last_key c, Fin (mget (ch_p c) (length (ch_states c) - 1) (length (ch_states c) - 1)))]) by (rewrite <- entries_split by (apply (accepted_ne n); exact HA); rewrite <- HT; symmetry; exact E1).
      apply app_inj_tail in E3. destruct E3 as [E3 E4]. injection E4 as E4 _. subst init k. apply (last_dict n c d' x o HA); [exact E2|exact H2].
Qed.
End Chain.
