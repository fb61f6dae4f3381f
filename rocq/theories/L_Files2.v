(** L_Files2: files of hidden Markov models. *)
From Verif Require Import S_Files L_Gen1 L_Valid2 L_Io1 L_Io3 L_Io4 L_Json L_Xml L_Files.
Open Scope nat_scope.
Open Scope res_scope.

Lemma lstrip_nonspace c t : is_space c = false -> lstrip (c :: t) = c :: t.
Proof. intros H. cbn. rewrite H. reflexivity. Qed.
Lemma strip_tagged tag s : (tag = "P_" \/ tag = "E_")%string -> (forall c r, chars s = r ++ [c] -> is_space c = false) -> chars s <> [] -> strip (tagged tag s) = tagged tag s.
Proof.
  intros HT HS Hne. apply strip_id. intros c r [E|E].
  - destruct HT as [->| ->]; unfold tagged in E; cbn in E; inversion E; reflexivity.
  - unfold tagged in E. destruct (exists_last Hne) as (w & x & Ew). rewrite Ew in E. rewrite app_assoc in E. apply app_inj_tail in E. destruct E as [_ <-]. apply (HS x w). exact Ew.
Qed.
Lemma tagged_parts tag s : (tag = "P_" \/ tag = "E_")%string -> str (firstn 2 (tagged tag s)) = tag /\ str (firstn 1 (tagged tag s)) = (if String.eqb tag "P_" then "P" else "E")%string /\ str (skipn 2 (tagged tag s)) = s.
Proof. intros [->| ->]; unfold tagged; cbn [chars list_ascii_of_string app firstn skipn]; (split; [reflexivity|split; [reflexivity|apply str_chars]]). Qed.
Definition header_ok (s : string) : Prop := chars s <> [] /\ forall c r, chars s = r ++ [c] -> is_space c = false.
Lemma hmm_header_app l m x y : hmm_header l = Ok x -> hmm_header m = Ok y -> hmm_header (l ++ m) = Ok (x ++ y).
Proof.
  revert x; induction l as [|w l IH]; intros x Hl Hm; [inversion Hl; exact Hm|]. cbn [app hmm_header] in *.
  destruct (Nat.leb 3 (length w)); [|discriminate]. destruct (_ || _); [|discriminate]. destruct (hmm_header l) as [z|]; [|discriminate]. cbn [bind] in *. inversion Hl; subst. rewrite (IH z eq_refl Hm). reflexivity.
Qed.
Lemma hmm_header_tagged tag l : (tag = "P_" \/ tag = "E_")%string -> (forall s, In s l -> header_ok s) ->
  hmm_header (map (tagged tag) l) = Ok (map (fun s => ((if String.eqb tag "P_" then "P" else "E")%string, s)) l).
Proof.
  intros HT H. induction l as [|s l IH]; [reflexivity|]. cbn [map hmm_header]. destruct (H s (or_introl eq_refl)) as [Hne HS].
  replace (Nat.leb 3 (length (tagged tag s))) with true.
  2: { symmetry. apply Nat.leb_le. unfold tagged. rewrite app_length. destruct HT as [->| ->]; destruct (chars s); try contradiction; cbn [chars list_ascii_of_string length]; lia. }
  rewrite strip_tagged by assumption. destruct (tagged_parts tag s HT) as (E1 & E2 & E3). rewrite E1, E2, E3.
  replace (String.eqb tag "E_" || String.eqb tag "P_") with true by (destruct HT as [->| ->]; reflexivity). rewrite IH by (intros x Hx; apply H; right; exact Hx). reflexivity.
Qed.
Lemma filter_labels (a b : string) l m : a <> b -> map snd (filter (fun x : string * string => String.eqb (fst x) a) (map (fun s => (a, s)) l ++ map (fun s => (b, s)) m)) = l.
Proof.
  intros Hab. rewrite filter_app, map_app.
  replace (map snd (filter (fun x : string * string => String.eqb (fst x) a) (map (fun s => (a, s)) l))) with l.
  2: { induction l as [|s l IH]; [reflexivity|]. cbn [map filter fst]. rewrite String.eqb_refl. cbn [map snd]. f_equal. exact IH. }
  replace (map snd (filter (fun x : string * string => String.eqb (fst x) a) (map (fun s => (b, s)) m))) with (@nil string); [apply app_nil_r|].
  induction m as [|s m IH]; [reflexivity|]. cbn [map filter fst]. replace (String.eqb b a) with false by (symmetry; apply String.eqb_neq; congruence). exact IH.
Qed.
Lemma filter_labels2 (a b : string) l m : a <> b -> map snd (filter (fun x : string * string => String.eqb (fst x) b) (map (fun s => (a, s)) l ++ map (fun s => (b, s)) m)) = m.
Proof.
  intros Hab. rewrite filter_app, map_app.
  replace (map snd (filter (fun x : string * string => String.eqb (fst x) b) (map (fun s => (b, s)) m))) with m.
  2: { induction m as [|s m IH]; [reflexivity|]. cbn [map filter fst]. rewrite String.eqb_refl. cbn [map snd]. f_equal. exact IH. }
  replace (map snd (filter (fun x : string * string => String.eqb (fst x) b) (map (fun s => (a, s)) l))) with (@nil string); [reflexivity|].
  induction l as [|s l IH]; [reflexivity|]. cbn [map filter fst]. replace (String.eqb a b) with false by (symmetry; apply String.eqb_neq; congruence). exact IH.
Qed.

Section RT.
Variable show : num -> text.
Variable float : text -> option num.
Variable limit : nat.
Variable nul_ok : bool.
Variable n k : nat.
Variable o : hobj.
Hypothesis HA : accepted_hmm n k o.
Hypothesis HP : prints show float n n (ho_p o).
Hypothesis HQ : prints show float n k (ho_e o).

Lemma hentries_ne : hmm_entries o <> [].
Proof.
  destruct HA as (Hn & _ & _ & _ & _ & _ & _ & _ & (HL & _) & _). intros C. assert (H : In (["P"%string; nth 0 (ho_states o) EmptyString; nth 0 (ho_states o) EmptyString], Fin (mget (ho_p o) 0 0)) (hmm_entries o)) by (apply hmm_entries_in; exists 0, 0; split; [lia|left; repeat split; lia]). rewrite C in H. exact H.
Qed.
Lemma hdict : hmm_to_dictionary o = hmm_entries o.
Proof. destruct HA as (_ & _ & _ & _ & _ & _ & _ & _ & (_ & HN & _) & (_ & HM & _) & _). apply hmm_to_dictionary_entries; assumption. Qed.
Lemma hnodup : NoDup (map fst (hmm_entries o)).
Proof. destruct HA as (_ & _ & _ & _ & _ & _ & _ & _ & (_ & HN & _) & (_ & HM & _) & _). apply hmm_entries_nodup; assumption. Qed.
Lemma hentry e (Q : string -> Prop) : (forall s, In s (ho_states o) \/ In s (ho_symbols o) -> Q s) -> In e (hmm_entries o) ->
  exists r a b, fst e = [r; a; b] /\ (r = "E" \/ r = "P")%string /\ Q a /\ Q b /\ decimal (show (snd e)) /\ survives show float (snd e).
Proof.
  intros HS H. destruct HA as (_ & _ & _ & _ & _ & _ & _ & _ & (HL & _) & (HK & _) & _). destruct e as [kk v]. apply hmm_entries_in in H. destruct H as (i & j & Hi & [(Hj & -> & ->)|(Hj & -> & ->)]).
  - eexists _, _, _. split; [reflexivity|]. split; [right; reflexivity|]. split; [apply HS; left; apply nth_In; exact Hi|]. split; [apply HS; left; apply nth_In; exact Hj|]. apply HP; lia.
  - eexists _, _, _. split; [reflexivity|]. split; [left; reflexivity|]. split; [apply HS; left; apply nth_In; exact Hi|]. split; [apply HS; right; apply nth_In; exact Hj|]. apply HQ; lia.
Qed.
Lemma hname_ne s : In s (ho_states o) \/ In s (ho_symbols o) -> s <> EmptyString.
Proof. destruct HA as (_ & _ & _ & _ & _ & _ & _ & _ & (_ & _ & HB) & (_ & _ & HC) & _). intros [H|H]; apply nonblank_ne; auto. Qed.
Lemma hfile_txt : (forall s, In s (ho_states o) \/ In s (ho_symbols o) -> spaceless s) -> read_txt float params_hmm (write_txt show (hmm_to_dictionary o)) = Ok (hmm_entries o).
Proof.
  intros HS. rewrite hdict. apply txt_read_back; [|apply hnodup]. intros e He. destruct (hentry e (fun s => solid (chars s))) as (r & a & b & E & Hr & Ha & Hb & HD & HV); [|exact He|].
  - intros s Hs. apply spaceless_solid; [apply HS; exact Hs|apply hname_ne; exact Hs].
  - split; [|split; [exact HV|apply decimal_solid; exact HD]]. rewrite E. unfold fits, params_hmm. constructor; [|constructor; [|constructor; [|constructor]]]; (split; [destruct Hr as [->| ->]; reflexivity|]); auto.
    destruct Hr as [->| ->]; (split; [discriminate|]); intros c [<-|[]]; reflexivity.
Qed.
Lemma hfile_json : read_json float params_hmm (write_json show params_hmm (hmm_to_dictionary o)) = Ok (hmm_entries o).
Proof.
  rewrite hdict. apply json_read_back; [apply params_hmm_json|apply hentries_ne| |apply hnodup]. intros e He. destruct (hentry e (fun s => s <> EmptyString)) as (r & a & b & E & Hr & Ha & Hb & HD & HV); [exact hname_ne|exact He|].
  split; [rewrite E; reflexivity|]. split; [|split; assumption]. rewrite E. unfold params_hmm. constructor; [|constructor; [|constructor; [|constructor]]]; split; auto; destruct Hr as [->| ->]; try discriminate; reflexivity.
Qed.
Lemma hfile_xml : (forall s, In s (ho_states o) \/ In s (ho_symbols o) -> trimmed s /\ xml_text s) -> read_xml float root_hmm params_hmm (write_xml show root_hmm params_hmm (hmm_to_dictionary o)) = Ok (hmm_entries o).
Proof.
  intros HS. rewrite hdict. apply xml_read_back; [right; reflexivity|apply params_hmm_tame|apply params_hmm_json|apply hentries_ne| |apply hnodup].
  intros e He. destruct (hentry e (fun s => s <> EmptyString /\ trimmed s /\ xml_text s)) as (r & a & b & E & Hr & (A1 & A2 & A3) & (B1 & B2 & B3) & HD & HV); [intros s Hs; split; [apply hname_ne; exact Hs|apply HS; exact Hs]|exact He|].
  split; [rewrite E; reflexivity|]. split; [|split; assumption]. rewrite E. unfold params_hmm. constructor; [|constructor; [|constructor; [|constructor]]]; repeat split; auto.
  - destruct Hr as [->| ->]; discriminate.
  - intros c w [C|C]; (destruct Hr as [->| ->]; cbn in C; [|]); try (inversion C; reflexivity); destruct w as [|x [|]]; inversion C; reflexivity.
  - intros c Hc. left. destruct Hr as [->| ->]; destruct Hc as [<-|[]]; cbn; lia.
  - destruct Hr as [->| ->]; reflexivity.
Qed.
Definition hmm_rows : list (list num) := map (fun i => nth i (map (map Fin) (ho_p o)) [] ++ nth i (map (map Fin) (ho_e o)) []) (seq 0 n).
Definition hmm_csv : text := csv_write ((map (tagged "P_") (ho_states o) ++ map (tagged "E_") (ho_symbols o)) :: map (map show) hmm_rows).
Lemma hfile_csv_text : write_csv_hmm show (hmm_entries o) = Ok hmm_csv.
Proof.
  destruct HA as (Hn & Hk & HW & _ & _ & HE & _ & _ & (HL & HN & HB) & (HK & HM & HC) & _). unfold write_csv_hmm. rewrite hmm_diagonal_entries by exact HN. rewrite HL. replace (Nat.eqb n 0) with false by (symmetry; apply Nat.eqb_neq; lia).
  rewrite hmm_symbols_entries by (auto; lia). rewrite HK. cbn [negb]. rewrite (fill_hmm_entries n k) by assumption. cbn [bind fst snd]. unfold hmm_csv, hmm_rows. do 3 f_equal. rewrite map_map. apply map_ext. intros i. rewrite map_app. reflexivity.
Qed.
Lemma hrow m (M : mat) i : wf n m M -> i < n -> nth i (map (map Fin) M) [] = map (fun j => Fin (mget M i j)) (seq 0 m).
Proof. intros HM Hi. rewrite (rows_tab n m) by exact HM. rewrite (nth_indep _ [] (map (fun j => Fin (mget M 0 j)) (seq 0 m))) by (rewrite map_length, seq_length; lia). rewrite (map_nth (fun i => map (fun j => Fin (mget M i j)) (seq 0 m))). rewrite seq_nth by lia. reflexivity. Qed.
Lemma hfile_csv : short show limit n n (ho_p o) -> short show limit n k (ho_e o) ->
  (forall s, In s (ho_states o) \/ In s (ho_symbols o) -> hmm_name_fits limit nul_ok Csv s) -> read_csv_hmm float limit nul_ok hmm_csv = Ok (hmm_entries o).
Proof.
  intros HS1 HS2 HS. destruct HA as (Hn & Hk & HW & _ & _ & HE & _ & _ & (HL & HN & HB) & (HK & HM & HC) & _). cbn [hmm_name_fits] in HS.
  assert (Hhd : forall s, In s (ho_states o) \/ In s (ho_symbols o) -> header_ok s).
  { intros s Hs. split; [pose proof (hname_ne s Hs); destruct s; [contradiction|discriminate]|apply HS; exact Hs]. }
  assert (HV : forall r v, In r hmm_rows -> In v r -> decimal (show v) /\ survives show float v /\ length (show v) <= limit).
  { intros r v Hr Hv. unfold hmm_rows in Hr. apply in_map_iff in Hr. destruct Hr as (i & <- & Hi). apply in_seq in Hi. apply in_app_iff in Hv. destruct Hv as [Hv|Hv].
    - rewrite (hrow n) in Hv by (auto; lia). apply in_map_iff in Hv. destruct Hv as (j & <- & Hj). apply in_seq in Hj. destruct (HP i j) as [D V]; [lia|lia|]. split; [exact D|]. split; [exact V|]. apply HS1; lia.
    - rewrite (hrow k) in Hv by (auto; lia). apply in_map_iff in Hv. destruct Hv as (j & <- & Hj). apply in_seq in Hj. destruct (HQ i j) as [D V]; [lia|lia|]. split; [exact D|]. split; [exact V|]. apply HS2; lia. }
  assert (HR : forall r, In r hmm_rows -> length r = n + k).
  { intros r Hr. unfold hmm_rows in Hr. apply in_map_iff in Hr. destruct Hr as (i & <- & Hi). apply in_seq in Hi. rewrite (hrow n), (hrow k) by (auto; lia). rewrite app_length, !map_length, !seq_length. reflexivity. }
  assert (Hrl : length hmm_rows = n) by (unfold hmm_rows; rewrite map_length, seq_length; reflexivity).
  unfold read_csv_hmm, hmm_csv. rewrite csv_read_back.
  - cbn [bind]. rewrite (hmm_header_app _ _ _ _ (hmm_header_tagged "P_" (ho_states o) (or_introl eq_refl) (fun s Hs => Hhd s (or_introl Hs))) (hmm_header_tagged "E_" (ho_symbols o) (or_intror eq_refl) (fun s Hs => Hhd s (or_intror Hs)))).
    cbn [bind String.eqb Ascii.eqb Bool.eqb]. rewrite (filter_labels "P" "E") by discriminate. rewrite (filter_labels2 "P" "E") by discriminate.
    replace (nodupb String.eqb (ho_states o)) with true by (symmetry; apply (nodupb_NoDup String.eqb String.eqb_eq); exact HN).
    replace (nodupb String.eqb (ho_symbols o)) with true by (symmetry; apply (nodupb_NoDup String.eqb String.eqb_eq); exact HM). cbn [andb].
    rewrite map_length, Hrl, HL, Nat.eqb_refl. change (map (fun s : string => ("P"%string, s)) (ho_states o) ++ map (fun s : string => ("E"%string, s)) (ho_symbols o)) with (hmm_labels o).
    rewrite (csv_body_ok show float).
    + cbn [app]. unfold hmm_rows. rewrite (hmm_table n k o HW HE HL HK). reflexivity.
    + congruence.
    + intros s r H. apply in_combine_r in H. rewrite map_length. unfold hmm_labels. rewrite app_length, !map_length, HL, HK. apply HR. exact H.
    + intros r v Hr Hv. destruct (HV r v Hr Hv) as (D & V & _). split; [exact V|apply decimal_ne; exact D].
    + cbn [app]. unfold hmm_rows. rewrite (hmm_table n k o HW HE HL HK). apply hnodup.
  - intros ws [<-|Hws].
    + split; [destruct (ho_states o); [cbn in HL; lia|discriminate]|]. intros w Hw.
      assert (Hc : forall tag s, (tag = "P_" \/ tag = "E_")%string -> In s (ho_states o) \/ In s (ho_symbols o) -> csv_ok limit nul_ok (tagged tag s)).
      { intros tag s HT Hs. destruct (HS s Hs) as (H1 & H2 & _). split; [|split].
        - unfold tagged. destruct HT as [->| ->]; discriminate.
        - unfold tagged. rewrite app_length. destruct HT as [->| ->]; exact H1.
        - destruct H2 as [H2|H2]; [left; exact H2|right]. unfold tagged. intros C. apply in_app_iff in C. destruct C as [C|C]; [|exact (H2 C)]. destruct HT as [->| ->]; cbn in C; intuition discriminate. }
      apply in_app_iff in Hw. destruct Hw as [Hw|Hw]; apply in_map_iff in Hw; destruct Hw as (s & <- & Hs); apply Hc; auto.
    + apply in_map_iff in Hws. destruct Hws as (r & <- & Hr). split; [specialize (HR r Hr); destruct r; [cbn in HR; lia|discriminate]|]. intros w Hw. apply in_map_iff in Hw. destruct Hw as (v & <- & Hv). destruct (HV r v Hr Hv) as (D & _ & L). apply csv_ok_decimal; assumption.
Qed.
Lemma hmm_file_round_trip f : (f = Csv -> short show limit n n (ho_p o) /\ short show limit n k (ho_e o)) -> (forall s, In s (ho_states o) \/ In s (ho_symbols o) -> hmm_name_fits limit nul_ok f s) ->
  exists t, hmm_to_file show f o = Ok t /\ hmm_from_file float limit nul_ok f t = Ok (as_hmm_object o).
Proof.
  intros HSh HS.
  assert (Hgo : forall t, hmm_read_file float limit nul_ok f t = Ok (hmm_entries o) -> t <> [] -> hmm_from_file float limit nul_ok f t = Ok (as_hmm_object o)).
  { intros t Ht Hne. unfold hmm_from_file. rewrite Ht. destruct t; [contradiction|]. cbn [nonempty length Nat.eqb negb bind]. apply (hmm_of_entries n k). exact HA. }
  pose proof hentries_ne as Hen.
  destruct f; unfold hmm_to_file; cbn [hmm_name_fits name_fits] in HS.
  - rewrite hdict, hfile_csv_text. eexists. split; [reflexivity|]. apply Hgo; [apply hfile_csv; [apply HSh; reflexivity|apply HSh; reflexivity|exact HS]|]. unfold hmm_csv, csv_write. cbn [map concat].
    intros C. apply app_eq_nil in C. destruct C as [C _]. unfold csv_row in C. destruct (map (tagged "P_") (ho_states o) ++ map (tagged "E_") (ho_symbols o)) as [|[|] [|]]; try discriminate; apply app_eq_nil in C; destruct C; discriminate.
  - eexists. split; [reflexivity|]. apply Hgo; [apply hfile_json|]. discriminate.
  - eexists. split; [reflexivity|]. apply Hgo; [apply hfile_txt; auto|]. rewrite hdict. unfold write_txt. destruct (hmm_entries o) as [|e d]; [contradiction|]. cbn [map concat]. intros C. apply app_eq_nil in C. destruct C as [C _]. apply app_eq_nil in C. destruct C as [_ C]. apply app_eq_nil in C. destruct C; discriminate.
  - eexists. split; [reflexivity|]. apply Hgo; [apply hfile_xml; auto|]. rewrite hdict. intros C. pose proof (hfile_xml HS) as E. rewrite hdict, C in E. discriminate.
Qed.
End RT.
