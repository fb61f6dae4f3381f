(** L_Torn6: what a file cut short reads as, in the four formats. *)
From Verif Require Import S_Disk L_Gen1 L_Valid2 L_Io1 L_Io3 L_Io4 L_Json L_Xml L_Files L_Files2 L_Torn L_Torn2 L_Torn3 L_Torn4 L_Torn5.
Open Scope nat_scope.
Open Scope res_scope.

Lemma chain_torn show float limit nul_ok n c f t p o : accepted_chain n c -> prints show float n n (ch_p c) -> (f = Csv -> short show limit n n (ch_p c)) -> (forall s, In s (ch_states c) -> name_fits limit nul_ok f s) ->
  to_file show f c = Ok t -> cut_short p t -> from_file float limit nul_ok f p = Ok o -> (f = Csv \/ f = Txt) /\ nearly_chain n c o.
Proof.
  intros HA HP HSh HS HT HC H. destruct HA as (Hn & HW & Hpr & Hst & (HL & HN & HB)) eqn:EA. pose proof HA as HA'. clear EA. unfold to_file in HT. rewrite (dict_entries n c HA') in HT. pose proof (entries_ne n c HA') as Hen. destruct f; cbn [name_fits] in HS.
  - split; [left; reflexivity|]. rewrite (file_csv_text show n c HA') in HT. injection HT as <-. apply (torn_csv show float limit nul_ok n c HA' HP p o); auto.
  - exfalso. injection HT as <-. destruct (json_torn show float params_mc (mc_entries c) p) as (e & He); auto using params_mc_json.
    + intros [k v] Hi. apply mc_entries_in in Hi. destruct Hi as (i & j & Hi & Hj & -> & ->). split; [reflexivity|]. split; [|apply HP; lia]. cbn [fst]. unfold params_mc. repeat constructor; apply nonblank_ne; apply HB; apply nth_In; assumption.
    + unfold from_file in H. destruct (nonempty p); [|discriminate]. cbn [read_file] in H. rewrite He in H. discriminate.
  - split; [right; reflexivity|]. injection HT as <-. apply (torn_txt show float limit nul_ok n c HA' HP p o); auto.
  - exfalso. injection HT as <-. destruct (xml_torn show float root_mc params_mc (mc_entries c) p) as (e & He); auto using params_mc_json, params_mc_tame.
    + left. reflexivity.
    + intros [k v] Hi. apply mc_entries_in in Hi. destruct Hi as (i & j & Hi & Hj & -> & ->). split; [reflexivity|]. split; [|apply HP; lia].
      assert (Hs : forall x, x < length (ch_states c) -> nth x (ch_states c) EmptyString <> EmptyString /\ trimmed (nth x (ch_states c) EmptyString) /\ xml_text (nth x (ch_states c) EmptyString)).
      { intros x Hx. assert (Hin : In (nth x (ch_states c) EmptyString) (ch_states c)) by (apply nth_In; exact Hx). split; [apply nonblank_ne; apply HB; exact Hin|apply HS; exact Hin]. }
      destruct (Hs i Hi) as (A1 & A2 & A3), (Hs j Hj) as (B1 & B2 & B3). cbn [fst]. unfold params_mc. constructor; [|constructor; [|constructor]]; repeat split; assumption.
    + unfold from_file in H. destruct (nonempty p); [|discriminate]. cbn [read_file] in H. rewrite He in H. discriminate.
Qed.

Section Hmm.
Variable show : num -> text.
Variable float : text -> option num.
Variable limit : nat.
Variable nul_ok : bool.
Variable n k : nat.
Variable o : hobj.
Hypothesis HA : accepted_hmm n k o.
Hypothesis HP : prints show float n n (ho_p o).
Hypothesis HQ : prints show float n k (ho_e o).
Notation st i := (nth i (ho_states o) EmptyString).
Notation sy j := (nth j (ho_symbols o) EmptyString).
Lemma last_e_fresh j : j < k -> ~ In ["E"%string; st (n - 1); sy j] (map fst (hinit n k o)).
Proof.
  intros Hj C. destruct (hsizes n k o HA) as (Hn & Hk & _). pose proof (hkeys_nodup n k o HA) as HD. rewrite (hsplit n k o HA), map_app in HD.
  assert (Hin : In ["E"%string; st (n - 1); sy j] (map fst (e_row k o (n - 1)))) by (unfold e_row; rewrite map_map; apply in_map_iff; exists j; split; [reflexivity|apply in_seq; lia]).
  clear - HD C Hin. induction (map fst (hinit n k o)) as [|x l IH]; [destruct C|]. cbn [app] in HD. inversion HD as [|? ? A1 A2]. subst. destruct C as [->|C]; [apply A1; apply in_app_iff; right; exact Hin|exact (IH C A2)].
Qed.
Lemma hmm_shorter d' m o' : map fst d' = map fst (firstn m (hmm_entries o)) -> hmm_of_dict d' = Ok o' -> length (hinit n k o) < m.
Proof.
  intros HK H. pose proof (hmm_short n k o HA d' m o' HK H) as L. destruct (Nat.eq_dec m (length (hinit n k o))) as [E|]; [|lia]. exfalso. destruct (hsizes n k o HA) as (Hn & Hk & _).
  assert (HK0 : map fst d' = map fst (hinit n k o)) by (rewrite HK, (hsplit n k o HA), E, firstn_app, Nat.sub_diag, firstn_all; cbn [firstn]; rewrite app_nil_r; reflexivity).
  destruct (hmm_tail n k o HA d' 0 o') as (P' & E' & _ & _ & _ & _ & NE & _ & GE); [rewrite HK0; cbn [firstn]; rewrite app_nil_r; reflexivity|exact H|].
  specialize (NE (n - 1) ltac:(lia)). rewrite (sumn_ext k (fun j => mget E' (n - 1) j) (fun _ => 0%Qc)) in NE.
  - rewrite sumn_0 in NE by reflexivity. revert NE. unfold nearly_one. intros [C _]. revert C. apply Qclt_not_le. unfold tolerance. reflexivity.
  - intros j Hj. specialize (GE (n - 1) j ltac:(lia) Hj). rewrite (proj2 (lookup_none _ _)) in GE; [congruence|]. rewrite HK0. apply last_e_fresh. exact Hj.
Qed.
Lemma hgood : (forall s, In s (ho_states o) \/ In s (ho_symbols o) -> spaceless s) -> forall e, In e (hmm_entries o) -> good_entry show float params_hmm e.
Proof.
  intros HS e He. destruct (hentry show float n k o HA HP HQ e (fun s => solid (chars s))) as (r & a & b & E & Hr & Ha & Hb & HD & HV); [|exact He|].
  - intros s Hs. apply spaceless_solid; [apply HS; exact Hs|apply (hname_ne n k o HA); exact Hs].
  - split; [|split; [exact HV|apply decimal_solid; exact HD]]. rewrite E. unfold fits, params_hmm. constructor; [|constructor; [|constructor; [|constructor]]]; (split; [destruct Hr as [->| ->]; reflexivity|]); auto.
    destruct Hr as [->| ->]; (split; [discriminate|]); intros c [<-|[]]; reflexivity.
Qed.
Lemma torn_htxt p o' : (forall s, In s (ho_states o) \/ In s (ho_symbols o) -> spaceless s) -> cut_short p (write_txt show (hmm_entries o)) -> hmm_from_file float limit nul_ok Txt p = Ok o' -> same_but_last_row n k o o'.
Proof.
  intros HS HC H. unfold hmm_from_file in H. destruct (nonempty p); [|discriminate]. apply bind_inv in H. destruct H as (d' & H1 & H2). cbn [hmm_read_file] in H1.
  assert (Fin : forall tl r, map fst tl = map fst (firstn r (e_row k o (n - 1))) -> d' = hinit n k o ++ tl -> same_but_last_row n k o o').
  { intros tl r HK ->. destruct (hmm_torn_tail n k o HA tl r o' HK H2) as (E' & A1 & A2 & A3 & A4 & _). exists E'. auto. }
  destruct (txt_cut show float params_hmm (hmm_entries o) p d' (hgood HS) (hkeys_nodup n k o HA) HC H1) as (m & Hm & [E|(e & x & v' & v'' & He & E & _)]).
  - subst d'. pose proof (hmm_shorter _ m o' eq_refl H2) as L. apply (Fin (firstn (m - length (hinit n k o)) (e_row k o (n - 1))) (m - length (hinit n k o)) eq_refl). rewrite (hsplit n k o HA), firstn_app, firstn_all2 by lia. reflexivity.
  - assert (HK : map fst d' = map fst (firstn (S m) (hmm_entries o))).
    { rewrite E, map_app. cbn [map fst]. clear - He. revert m He. generalize (hmm_entries o). induction l as [|y l IH]; intros [|m] He; try discriminate; cbn [nth_error firstn map app fst] in *; [injection He as <-; reflexivity|]. f_equal. apply (IH m He). }
    pose proof (hmm_shorter d' (S m) o' HK H2) as L. apply (Fin (firstn (m - length (hinit n k o)) (e_row k o (n - 1)) ++ [(fst e, x)]) (S m - length (hinit n k o))).
    + rewrite (hsplit n k o HA) in HK. rewrite firstn_app, firstn_all2 in HK by lia. rewrite E in HK. rewrite (hsplit n k o HA), firstn_app, firstn_all2 in HK by lia. rewrite <- app_assoc in HK. rewrite !map_app in HK. apply app_inv_head in HK. rewrite map_app. exact HK.
    + rewrite E, (hsplit n k o HA), firstn_app, firstn_all2 by lia. rewrite <- app_assoc. reflexivity.
Qed.
Lemma last_hmm_dict d' x o' : d' = hinit n k o ++ map (fun j => (["E"%string; st (n - 1); sy j], Fin (mget (ho_e o) (n - 1) j))) (seq 0 (k - 1)) ++ [(["E"%string; st (n - 1); sy (k - 1)], x)] -> hmm_of_dict d' = Ok o' -> nearly_hmm n k o o'.
Proof.
  intros Ed H2. destruct (hsizes n k o HA) as (Hn & Hk & _). set (tl := map (fun j => (["E"%string; st (n - 1); sy j], Fin (mget (ho_e o) (n - 1) j))) (seq 0 (k - 1)) ++ [(["E"%string; st (n - 1); sy (k - 1)], x)]) in *.
  assert (HK : map fst tl = map fst (firstn k (e_row k o (n - 1)))).
  { rewrite firstn_all2 by (rewrite e_row_length; lia). unfold e_row, tl. rewrite (map_last k) by lia. rewrite !map_app. reflexivity. }
  rewrite Ed in H2. destruct (hmm_torn_tail n k o HA tl k o' HK H2) as (E' & A1 & A2 & A3 & A4 & A5). exists E'. split; [exact A1|]. split; [exact A2|].
  assert (HND : NoDup (map fst (hinit n k o ++ tl))) .
  { replace (map fst (hinit n k o ++ tl)) with (map fst (hmm_entries o)); [apply (hkeys_nodup n k o HA)|]. rewrite (hsplit n k o HA), !map_app. f_equal. symmetry. rewrite firstn_all2 in HK by (rewrite e_row_length; lia). exact HK. }
  assert (A6 : forall j, j < k - 1 -> mget E' (n - 1) j = mget (ho_e o) (n - 1) j).
  { intros j Hj. specialize (A5 j ltac:(lia)). rewrite (proj2 (lookup_in _ _ (Fin (mget (ho_e o) (n - 1) j)) HND)) in A5; [congruence|]. apply in_app_iff. right. unfold tl. apply in_app_iff. left. apply in_map_iff. exists j. split; [reflexivity|apply in_seq; lia]. }
  split.
  - intros i j Hi Hj Hij. destruct (Nat.eq_dec i (n - 1)) as [->|]; [|apply A4; lia]. apply A6. assert (j <> k - 1) by (intros ->; contradiction). lia.
  - destruct HA as (_ & _ & _ & _ & _ & _ & _ & HT & _).
    assert (HS1 : (sumn k (fun j => mget E' (n - 1) j) - sumn k (fun j => mget (ho_e o) (n - 1) j) = mget E' (n - 1) (k - 1) - mget (ho_e o) (n - 1) (k - 1))%Qc).
    { assert (SL : forall f, sumn k f = (sumn (k - 1) f + f (k - 1)%nat)%Qc) by (intros f; replace k with (S (k - 1)) at 1 by lia; reflexivity).
      rewrite !SL. rewrite (sumn_ext (k - 1) (fun j => mget E' (n - 1) j) (fun j => mget (ho_e o) (n - 1) j)) by exact A6. ring. }
    rewrite <- HS1. apply Qcabs_two; [apply (A3 (n - 1)); lia|apply (HT (n - 1)); lia].
Qed.
Lemma hrow_values : short show limit n n (ho_p o) -> short show limit n k (ho_e o) -> forall r v, In r (hmm_rows n o) -> In v r -> decimal (show v) /\ survives show float v /\ length (show v) <= limit.
Proof.
  intros HS1 HS2 r v Hr Hv. destruct HA as (Hn & Hk & HW & _ & _ & HE & _). unfold hmm_rows in Hr. apply in_map_iff in Hr. destruct Hr as (i & <- & Hi). apply in_seq in Hi. apply in_app_iff in Hv. destruct Hv as [Hv|Hv].
  - rewrite (hrow n n) in Hv by (auto; lia). apply in_map_iff in Hv. destruct Hv as (j & <- & Hj). apply in_seq in Hj. destruct (HP i j) as [D V]; [lia|lia|]. split; [exact D|]. split; [exact V|]. apply HS1; lia.
  - rewrite (hrow n k) in Hv by (auto; lia). apply in_map_iff in Hv. destruct Hv as (j & <- & Hj). apply in_seq in Hj. destruct (HQ i j) as [D V]; [lia|lia|]. split; [exact D|]. split; [exact V|]. apply HS2; lia.
Qed.
Lemma hrow_length r : In r (hmm_rows n o) -> length r = n + k.
Proof. destruct HA as (Hn & Hk & HW & _ & _ & HE & _). intros Hr. unfold hmm_rows in Hr. apply in_map_iff in Hr. destruct Hr as (i & <- & Hi). apply in_seq in Hi. rewrite (hrow n n), (hrow n k) by (auto; lia). rewrite app_length, !map_length, !seq_length. reflexivity. Qed.
Lemma header_fits : (forall s, In s (ho_states o) \/ In s (ho_symbols o) -> hmm_name_fits limit nul_ok Csv s) -> row_fits limit nul_ok (map (tagged "P_") (ho_states o) ++ map (tagged "E_") (ho_symbols o)).
Proof.
  intros HS. destruct (hsizes n k o HA) as (Hn & Hk & HL & _). cbn [hmm_name_fits] in HS. split; [destruct (ho_states o); [cbn in HL; lia|discriminate]|]. intros w Hw.
  assert (Hc : forall tag s, (tag = "P_" \/ tag = "E_")%string -> In s (ho_states o) \/ In s (ho_symbols o) -> csv_ok limit nul_ok (tagged tag s)).
  { intros tag s HT Hs. destruct (HS s Hs) as (A1 & A2 & _). split; [|split].
    - unfold tagged. destruct HT as [->| ->]; discriminate.
    - unfold tagged. rewrite app_length. destruct HT as [->| ->]; exact A1.
    - destruct A2 as [A2|A2]; [left; exact A2|right]. unfold tagged. intros C. apply in_app_iff in C. destruct C as [C|C]; [|exact (A2 C)]. destruct HT as [->| ->]; cbn in C; intuition discriminate. }
  apply in_app_iff in Hw. destruct Hw as [Hw|Hw]; apply in_map_iff in Hw; destruct Hw as (s & <- & Hs); apply Hc; auto.
Qed.
Lemma empty_hmm o' : hmm_of_dict [] = Ok o' -> False.
Proof. intros H. discriminate. Qed.
Lemma torn_hcsv p o' : short show limit n n (ho_p o) -> short show limit n k (ho_e o) -> (forall s, In s (ho_states o) \/ In s (ho_symbols o) -> hmm_name_fits limit nul_ok Csv s) ->
  cut_short p (hmm_csv show n o) -> hmm_from_file float limit nul_ok Csv p = Ok o' -> nearly_hmm n k o o'.
Proof.
  intros HS1 HS2 HS HC H. unfold hmm_from_file in H. destruct (nonempty p); [|discriminate]. apply bind_inv in H. destruct H as (d' & H1 & H2). cbn [hmm_read_file] in H1. unfold read_csv_hmm in H1. apply bind_inv in H1. destruct H1 as (R & HR & H1).
  pose proof (hrow_values HS1 HS2) as HV. destruct (hsizes n k o HA) as (Hn & Hk & HL & HK & HN & HM). pose proof HA as (_ & _ & HW & _ & _ & HE & _).
  assert (Hrl : length (hmm_rows n o) = n) by (unfold hmm_rows; rewrite map_length, seq_length; reflexivity).
  destruct (csv_cut limit nul_ok (map (tagged "P_") (ho_states o) ++ map (tagged "E_") (ho_symbols o)) (map (map show) (hmm_rows n o)) p R) as [L|(rows & -> & Hcase)]; auto.
  - apply header_fits. exact HS.
  - destruct (hmm_rows n o); [cbn in Hrl; lia|discriminate].
  - intros ws Hws. apply in_map_iff in Hws. destruct Hws as (r & <- & Hr). pose proof (hrow_length r Hr) as Hlr. split.
    + split; [destruct r; [cbn in Hlr; lia|discriminate]|]. intros w Hw. apply in_map_iff in Hw. destruct Hw as (v & <- & Hv). destruct (HV r v Hr Hv) as (D & _ & L). apply csv_ok_decimal; assumption.
    + intros w Hw. apply in_map_iff in Hw. destruct Hw as (v & <- & Hv). destruct (HV r v Hr Hv) as (D & _ & L). split; [apply decimal_ne; exact D|]. split; [exact L|apply special_decimal; exact D].
  - exfalso. destruct R as [|h R]; [injection H1 as <-; exact (empty_hmm o' H2)|]. destruct R; [|cbn in L; lia]. apply bind_inv in H1. destruct H1 as (labels & Hlab & H1). cbv zeta in H1. destruct (_ && _); [|discriminate]. cbv iota in H1.
    destruct (map snd (filter (fun l => String.eqb (fst l) "P") labels)); [|discriminate]. cbn [length Nat.eqb csv_body] in H1. injection H1 as <-. exact (empty_hmm o' H2).
  - assert (Hhd : forall s, In s (ho_states o) \/ In s (ho_symbols o) -> header_ok s).
    { intros s Hs. split; [pose proof (hname_ne n k o HA s Hs); destruct s; [contradiction|discriminate]|apply HS; exact Hs]. }
    rewrite (hmm_header_app _ _ _ _ (hmm_header_tagged "P_" (ho_states o) (or_introl eq_refl) (fun s Hs => Hhd s (or_introl Hs))) (hmm_header_tagged "E_" (ho_symbols o) (or_intror eq_refl) (fun s Hs => Hhd s (or_intror Hs)))) in H1.
    cbn [bind String.eqb Ascii.eqb Bool.eqb] in H1. rewrite (filter_labels "P" "E") in H1 by discriminate. rewrite (filter_labels2 "P" "E") in H1 by discriminate. destruct (_ && _); [|discriminate]. cbv iota in H1.
    rewrite map_length, Hrl in Hcase. rewrite HL in H1. destruct Hcase as [L|(j & w' & w'' & Hj & Hw & Hrows)]; [exfalso; destruct (Nat.eqb_spec n (length rows)); [lia|discriminate]|]. destruct (Nat.eqb _ _); [|discriminate].
    change (map (fun s : string => ("P"%string, s)) (ho_states o) ++ map (fun s : string => ("E"%string, s)) (ho_symbols o)) with (hmm_labels o) in H1.
    destruct (@exists_last _ (ho_states o)) as (S1 & s & ES); [destruct (ho_states o); [cbn in HL; lia|discriminate]|].
    destruct (@exists_last _ (hmm_rows n o)) as (V1 & r & EV); [destruct (hmm_rows n o); [cbn in Hrl; lia|discriminate]|].
    assert (Hr : In r (hmm_rows n o)) by (rewrite EV; apply in_app_iff; right; left; reflexivity). pose proof (hrow_length r Hr) as Hlr.
    destruct (@exists_last _ r) as (r1 & v & Er); [destruct r; [cbn in Hlr; lia|discriminate]|].
    assert (HLv : length S1 = length V1). { pose proof (f_equal (@length _) ES) as A1. pose proof (f_equal (@length _) EV) as A2. rewrite app_length in A1, A2. cbn [length] in A1, A2. lia. }
    rewrite EV, Er in Hrows, Hj. rewrite map_app in Hrows, Hj. cbn [map] in Hrows, Hj. rewrite removelast_last, last_last in Hrows. rewrite last_last, map_length in Hj. rewrite Hrows in H1.
    pose proof (hmm_table n k o HW HE HL HK) as HT. change (map (fun i => nth i (map (map Fin) (ho_p o)) [] ++ nth i (map (map Fin) (ho_e o)) []) (seq 0 n)) with (hmm_rows n o) in HT.
    assert (HN' := hkeys_nodup n k o HA). rewrite <- HT in HN'.
    set (keys := fun s0 : string => map (fun l : string * string => [fst l; s0; snd l]) (hmm_labels o)) in *. rewrite ES in H1 at 1. rewrite ES, EV, Er in HT, HN'.
    assert (Hkl : forall s0, length (keys s0) = n + k) by (intros s0; unfold keys, hmm_labels; rewrite map_length, app_length, !map_length, HL, HK; reflexivity).
    destruct (body_cut show float keys S1 s V1 r1 v j w' d' HLv) as (init & kk & x & E1 & E2 & _); auto.
    + intros s' r' H'. apply in_combine_r in H'. rewrite Hkl. apply hrow_length. rewrite EV. apply in_app_iff. left. exact H'.
    + rewrite Hkl. rewrite Er, app_length in Hlr. cbn [length] in Hlr. lia.
    + intros r' x Hr' Hx. rewrite <- Er, <- EV in Hr'. destruct (HV r' x Hr' Hx) as (D & V & _). split; [exact V|apply decimal_ne; exact D].
    + rewrite HT, (hsplit n k o HA) in E1. unfold e_row in E1. rewrite (map_last k) in E1 by lia. rewrite app_assoc in E1. apply app_inj_tail in E1. destruct E1 as [E3 E4]. injection E4 as E4 _. subst init kk. apply (last_hmm_dict d' x o'); [rewrite E2, <- app_assoc; reflexivity|exact H2].
Qed.
Lemma hmm_torn f t p o' : (f = Csv -> short show limit n n (ho_p o) /\ short show limit n k (ho_e o)) -> (forall s, In s (ho_states o) \/ In s (ho_symbols o) -> hmm_name_fits limit nul_ok f s) ->
  hmm_to_file show f o = Ok t -> cut_short p t -> hmm_from_file float limit nul_ok f p = Ok o' -> (f = Csv /\ nearly_hmm n k o o') \/ (f = Txt /\ same_but_last_row n k o o').
Proof.
  intros HSh HS HT HC H. unfold hmm_to_file in HT. rewrite (hdict n k o HA) in HT. pose proof (hentries_ne n k o HA) as Hen. destruct f; cbn [hmm_name_fits name_fits] in HS.
  - left. split; [reflexivity|]. rewrite (hfile_csv_text show n k o HA) in HT. injection HT as <-. destruct (HSh eq_refl). apply (torn_hcsv p o'); auto.
  - exfalso. injection HT as <-. destruct (json_torn show float params_hmm (hmm_entries o) p) as (e & He); auto using params_hmm_json.
    + intros e He. destruct (hentry show float n k o HA HP HQ e (fun s => s <> EmptyString)) as (r & a & b & E & Hr & Ha & Hb & HD & HV); [exact (hname_ne n k o HA)|exact He|].
      split; [rewrite E; reflexivity|]. split; [|split; assumption]. rewrite E. unfold params_hmm. constructor; [|constructor; [|constructor; [|constructor]]]; split; auto; destruct Hr as [->| ->]; try discriminate; reflexivity.
    + unfold hmm_from_file in H. destruct (nonempty p); [|discriminate]. cbn [hmm_read_file] in H. rewrite He in H. discriminate.
  - right. split; [reflexivity|]. injection HT as <-. apply (torn_htxt p o'); auto.
  - exfalso. injection HT as <-. destruct (xml_torn show float root_hmm params_hmm (hmm_entries o) p) as (e & He); auto using params_hmm_json, params_hmm_tame.
    + right. reflexivity.
    + intros e He. destruct (hentry show float n k o HA HP HQ e (fun s => s <> EmptyString /\ trimmed s /\ xml_text s)) as (r & a & b & E & Hr & (A1 & A2 & A3) & (B1 & B2 & B3) & HD & HV); [intros s Hs; split; [apply (hname_ne n k o HA); exact Hs|apply HS; exact Hs]|exact He|].
      split; [rewrite E; reflexivity|]. split; [|split; assumption]. rewrite E. unfold params_hmm. constructor; [|constructor; [|constructor; [|constructor]]]; repeat split; auto.
      * destruct Hr as [->| ->]; discriminate.
      * intros c w [C|C]; (destruct Hr as [->| ->]; cbn in C; [|]); try (inversion C; reflexivity); destruct w as [|x [|]]; inversion C; reflexivity.
      * intros c Hc. left. destruct Hr as [->| ->]; destruct Hc as [<-|[]]; cbn; lia.
      * destruct Hr as [->| ->]; reflexivity.
    + unfold hmm_from_file in H. destruct (nonempty p); [|discriminate]. cbn [hmm_read_file] in H. rewrite He in H. discriminate.
Qed.
End Hmm.
