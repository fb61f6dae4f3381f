(** L_Files: files written and read back. *)
From Verif Require Import S_Files L_Gen1 L_Valid2 L_Io1 L_Io3 L_Io4 L_Json L_Xml.
Open Scope nat_scope.
Open Scope res_scope.

Lemma nonblank_ne s : nonblank s = true -> s <> EmptyString.
Proof. intros H ->. discriminate. Qed.
Lemma spaceless_solid s : spaceless s -> s <> EmptyString -> solid (chars s).
Proof. intros H Hne. split; [destruct s; [contradiction|discriminate]|exact H]. Qed.
Lemma decimal_solid w : decimal w -> solid w.
Proof. intros H. split; [apply decimal_ne; exact H|]. intros c Hc. apply (decimal_chars w c H Hc). Qed.

Section RT.
Variable show : num -> text.
Variable float : text -> option num.
Variable limit : nat.
Variable nul_ok : bool.
Variable n : nat.
Variable c : chain.
Hypothesis HA : accepted_chain n c.
Hypothesis HP : prints show float n n (ch_p c).

Lemma entries_ne : mc_entries c <> [].
Proof.
  destruct HA as (Hn & _ & _ & _ & (HL & _)). intros C. assert (H : In ([nth 0 (ch_states c) EmptyString; nth 0 (ch_states c) EmptyString], Fin (mget (ch_p c) 0 0)) (mc_entries c)).
  { apply mc_entries_in. exists 0, 0. repeat split; lia. } rewrite C in H. exact H.
Qed.
Lemma dict_entries : to_dictionary c = mc_entries c.
Proof. apply to_dictionary_entries. apply HA. Qed.
Lemma file_txt : (forall s, In s (ch_states c) -> spaceless s) -> read_txt float params_mc (write_txt show (to_dictionary c)) = Ok (mc_entries c).
Proof.
  intros HS. destruct HA as (Hn & HW & Hpr & Hst & (HL & HN & HB)). rewrite dict_entries. apply txt_read_back; [|apply mc_entries_nodup; exact HN].
  intros [k v] H. apply mc_entries_in in H. destruct H as (i & j & Hi & Hj & -> & ->). rewrite HL in Hi, Hj. destruct (HP i j Hi Hj) as [HD HV].
  assert (Hs : forall i, i < n -> solid (chars (nth i (ch_states c) EmptyString))).
  { intros x Hx. assert (Hin : In (nth x (ch_states c) EmptyString) (ch_states c)) by (apply nth_In; lia). apply spaceless_solid; [apply HS; exact Hin|apply nonblank_ne; apply HB; exact Hin]. }
  split; [|split; [exact HV|apply decimal_solid; exact HD]]. cbn [fst]. unfold fits, params_mc. constructor; [|constructor; [|constructor]]; (split; [reflexivity|apply Hs; assumption]).
Qed.
Lemma file_json : read_json float params_mc (write_json show params_mc (to_dictionary c)) = Ok (mc_entries c).
Proof.
  destruct HA as (Hn & HW & Hpr & Hst & (HL & HN & HB)). rewrite dict_entries. apply json_read_back; [apply params_mc_json|apply entries_ne| |apply mc_entries_nodup; exact HN].
  intros [k v] H. apply mc_entries_in in H. destruct H as (i & j & Hi & Hj & -> & ->). split; [reflexivity|]. split; [|apply HP; lia].
  cbn [fst]. unfold params_mc. repeat constructor; apply nonblank_ne; apply HB; apply nth_In; assumption.
Qed.
Lemma file_xml : (forall s, In s (ch_states c) -> trimmed s /\ xml_text s) -> read_xml float root_mc params_mc (write_xml show root_mc params_mc (to_dictionary c)) = Ok (mc_entries c).
Proof.
  intros HS. destruct HA as (Hn & HW & Hpr & Hst & (HL & HN & HB)). rewrite dict_entries. apply xml_read_back; [left; reflexivity|apply params_mc_tame|apply params_mc_json|apply entries_ne| |apply mc_entries_nodup; exact HN].
  intros [k v] H. apply mc_entries_in in H. destruct H as (i & j & Hi & Hj & -> & ->). split; [reflexivity|]. split; [|apply HP; lia].
  assert (Hs : forall x, x < length (ch_states c) -> nth x (ch_states c) EmptyString <> EmptyString /\ trimmed (nth x (ch_states c) EmptyString) /\ xml_text (nth x (ch_states c) EmptyString)).
  { intros x Hx. assert (Hin : In (nth x (ch_states c) EmptyString) (ch_states c)) by (apply nth_In; exact Hx). split; [apply nonblank_ne; apply HB; exact Hin|apply HS; exact Hin]. }
  destruct (Hs i Hi) as (A1 & A2 & A3), (Hs j Hj) as (B1 & B2 & B3). cbn [fst]. unfold params_mc. constructor; [|constructor; [|constructor]]; repeat split; assumption.
Qed.
Lemma file_csv_text : write_csv_mc show (mc_entries c) = Ok (csv_write (map chars (ch_states c) :: map (map show) (map (map Fin) (ch_p c)))).
Proof.
  destruct HA as (Hn & HW & Hpr & Hst & (HL & HN & HB)). unfold write_csv_mc. rewrite mc_diagonal by exact HN. rewrite HL. rewrite (fill_entries n) by assumption. reflexivity.
Qed.
Lemma csv_ok_decimal w : decimal w -> length w <= limit -> csv_ok limit nul_ok w.
Proof. intros HD Hl. split; [apply decimal_ne; exact HD|]. split; [exact Hl|]. right. intros C. pose proof (decimal_chars w _ HD C) as (_ & _ & _ & _ & E). congruence. Qed.
Lemma file_csv : short show limit n n (ch_p c) -> (forall s, In s (ch_states c) -> length (chars s) <= limit /\ (nul_ok = true \/ no_nul s)) ->
  read_csv_mc float limit nul_ok (csv_write (map chars (ch_states c) :: map (map show) (map (map Fin) (ch_p c)))) = Ok (mc_entries c).
Proof.
  intros HSh HS. destruct HA as (Hn & HW & Hpr & Hst & (HL & HN & HB)).
  assert (Hne : forall s, In s (ch_states c) -> chars s <> []) by (intros s Hs; apply HB in Hs; destruct s; [discriminate Hs|discriminate]).
  assert (HV : forall r v, In r (map (map Fin) (ch_p c)) -> In v r -> exists i j, i < n /\ j < n /\ v = Fin (mget (ch_p c) i j)).
  { intros r v Hr Hv. rewrite (rows_tab n n) in Hr by exact HW. apply in_map_iff in Hr. destruct Hr as (i & <- & Hi). apply in_map_iff in Hv. destruct Hv as (j & <- & Hj). apply in_seq in Hi, Hj. exists i, j. repeat split; lia. }
  assert (HR : forall r, In r (map (map Fin) (ch_p c)) -> length r = n) by (intros r Hr; apply (proj2 (fin_shape n n _ HW)); exact Hr).
  unfold read_csv_mc. rewrite csv_read_back.
  - cbn [bind]. replace (forallb nonempty (map chars (ch_states c))) with true.
    2: { symmetry. apply forallb_forall. intros w Hw. apply in_map_iff in Hw. destruct Hw as (s & <- & Hs). unfold nonempty. specialize (Hne s Hs). destruct (chars s); [contradiction|reflexivity]. }
    replace (map str (map chars (ch_states c))) with (ch_states c) by (rewrite map_map; symmetry; rewrite <- (map_id (ch_states c)) at 2; apply map_ext; intros s; apply str_chars).
    replace (nodupb String.eqb (ch_states c)) with true by (symmetry; apply (nodupb_NoDup String.eqb String.eqb_eq); exact HN).
    assert (HLen : length (map (map show) (map (map Fin) (ch_p c))) = length (ch_states c)) by (rewrite !map_length, HL; apply HW). rewrite HLen, Nat.eqb_refl.
    rewrite (csv_body_ok show float).
    + cbn [app]. rewrite (mc_table n c HW HL). reflexivity.
    + rewrite map_length in HLen. congruence.
    + intros s r H. apply in_combine_r in H. rewrite map_length. rewrite HL. apply HR. exact H.
    + intros r v Hr Hv. destruct (HV r v Hr Hv) as (i & j & Hi & Hj & ->). destruct (HP i j Hi Hj) as [HD HS']. split; [exact HS'|apply decimal_ne; exact HD].
    + cbn [app]. rewrite (mc_table n c HW HL). apply mc_entries_nodup. exact HN.
  - intros ws [<-|Hws].
    + split; [destruct (ch_states c); [cbn in HL; lia|discriminate]|]. intros w Hw. apply in_map_iff in Hw. destruct Hw as (s & <- & Hs). destruct (HS s Hs) as [H1 H2]. split; [apply Hne; exact Hs|]. split; [exact H1|exact H2].
    + apply in_map_iff in Hws. destruct Hws as (r & <- & Hr). split; [specialize (HR r Hr); destruct r; [cbn in HR; lia|discriminate]|]. intros w Hw. apply in_map_iff in Hw. destruct Hw as (v & <- & Hv). destruct (HV r v Hr Hv) as (i & j & Hi & Hj & ->). apply csv_ok_decimal; [apply HP; assumption|apply HSh; assumption].
Qed.

Lemma file_round_trip f : (f = Csv -> short show limit n n (ch_p c)) -> (forall s, In s (ch_states c) -> name_fits limit nul_ok f s) ->
  exists t, to_file show f c = Ok t /\ from_file float limit nul_ok f t = Ok (as_object c).
Proof.
  intros HSh HS.
  assert (Hgo : forall t, read_file float limit nul_ok f t = Ok (mc_entries c) -> t <> [] -> from_file float limit nul_ok f t = Ok (as_object c)).
  { intros t Ht Hne. unfold from_file. rewrite Ht. destruct t; [contradiction|]. cbn [nonempty length Nat.eqb negb bind]. apply (chain_of_entries n). exact HA. }
  pose proof HA as (Hn & _ & _ & _ & (HL & _)). pose proof entries_ne as Hen.
  destruct f; unfold to_file; cbn [name_fits] in HS.
  - rewrite dict_entries, file_csv_text. eexists. split; [reflexivity|]. apply Hgo; [apply file_csv; auto|]. unfold csv_write. cbn [map concat].
    intros C. apply app_eq_nil in C. destruct C as [C _]. unfold csv_row in C. destruct (map chars (ch_states c)) as [|[|] [|]]; try discriminate; apply app_eq_nil in C; destruct C; discriminate.
  - eexists. split; [reflexivity|]. apply Hgo; [apply file_json|]. discriminate.
  - eexists. split; [reflexivity|]. apply Hgo; [apply file_txt; auto|]. rewrite dict_entries. unfold write_txt. destruct (mc_entries c) as [|e d]; [contradiction|]. cbn [map concat]. intros C. apply app_eq_nil in C. destruct C as [C _]. apply app_eq_nil in C. destruct C as [_ C]. apply app_eq_nil in C. destruct C; discriminate.
  - eexists. split; [reflexivity|]. apply Hgo; [apply file_xml; auto|]. rewrite dict_entries. intros C. pose proof (file_xml HS) as E. rewrite dict_entries, C in E. discriminate.
Qed.
End RT.
