(** L_FilesR: files that do not read back, or that yield something invalid. *)
From Verif Require Import S_Files S_Graph L_Gen1 L_Valid2 L_Valid5 L_Io1 L_Io3 L_Io4 L_Files ExIo.
Open Scope nat_scope.
Open Scope res_scope.

(** ** CSV *)
Lemma raw_first t : (forall c, In c t -> is_nl c = false) -> forall r acc, exists ls, raw_lines acc (t ++ cr :: lf :: r) = (rev acc ++ t ++ [cr; lf]) :: ls.
Proof.
  induction t as [|c t IH]; intros H r acc.
  - exists (raw_lines [] r). cbn [app raw_lines]. change (Ascii.eqb cr lf) with false. change (Ascii.eqb cr cr) with true. change (Ascii.eqb lf lf) with true. cbv iota. cbn [rev]. rewrite <- app_assoc. reflexivity.
  - pose proof (H c (or_introl eq_refl)) as Hc. unfold is_nl in Hc. apply orb_false_iff in Hc. destruct Hc as [H1 H2]. cbn [app raw_lines]. rewrite H1, H2.
    destruct (IH (fun x K => H x (or_intror K)) r (c :: acc)) as (ls & E). exists ls. rewrite E. cbn [rev]. rewrite <- app_assoc. reflexivity.
Qed.
Definition long (k : nat) : text := repeat "a"%char k.
Lemma long_fails limit k r : forall m, c_st m = InField -> limit < length (c_field m) + k -> csv_chars limit m (long k ++ r) = Err OtherErr \/ limit < length (c_field m).
Proof.
  induction k as [|k IH]; intros m Hm Hk; [right; lia|]. left. cbn [long repeat app csv_chars]. unfold csv_char. rewrite Hm. cbn. unfold add_char. destruct (Nat.ltb_spec (length (c_field m)) limit) as [K|K]; [|reflexivity].
  cbn [bind]. destruct (IH (mkcr InField ("a"%char :: c_field m) (c_fields m)) eq_refl) as [E|E]; [cbn; lia|exact E|cbn in E; lia].
Qed.
Lemma long_fresh limit k r : limit < k -> csv_chars limit fresh (long k ++ r) = Err OtherErr.
Proof.
  destruct k as [|k]; intros H; [lia|]. cbn [long repeat app csv_chars]. cbn. unfold add_char. cbn [length c_field fresh]. destruct (Nat.ltb_spec 0 limit) as [K|K]; [|reflexivity]. cbn [bind].
  destruct (long_fails limit k r (mkcr InField ["a"%char] [])) as [E|E]; [reflexivity|cbn; lia|exact E|cbn in E; lia].
Qed.
Lemma nonblank_long k : nonblank (str (long (S k))) = true.
Proof. reflexivity. Qed.
Lemma long_nl k : forall c, In c (long k) -> is_nl c = false.
Proof. intros c H. apply repeat_spec in H. subst. reflexivity. Qed.
Lemma long_special k : existsb special (long k) = false.
Proof. apply not_true_iff_false. intros C. apply existsb_exists in C. destruct C as (c & Hc & E). apply repeat_spec in Hc. subst. discriminate. Qed.
(** the characters of the CSV file of a two-state chain start with its header *)
Lemma csv_head show a b : a <> b -> nonblank a = true -> nonblank b = true -> exists r,
  to_file show Csv (named a b) = Ok (csv_field (chars a) ++ comma :: csv_field (chars b) ++ cr :: lf :: r).
Proof.
  intros H Ha Hb. pose proof (named_ok a b H Ha Hb) as HA. unfold to_file. rewrite (dict_entries 2 (named a b) HA), (file_csv_text show 2 (named a b) HA).
  eexists. f_equal. unfold csv_write. cbn [map concat ch_states named]. unfold csv_row at 1.
  destruct (chars a) as [|x u] eqn:E; [destruct a; [discriminate Ha|discriminate E]|]. cbn [map join]. rewrite <- ?app_assoc. cbn [app]. rewrite <- ?app_assoc. cbn [app]. rewrite <- ?app_assoc. cbn [app]. reflexivity.
Qed.
Lemma csv_long_name show float limit nul_ok : exists c t, accepted_chain 2 c /\ to_file show Csv c = Ok t /\ from_file float limit nul_ok Csv t = Err OtherErr.
Proof.
  set (a := str (long (S (S limit)))). assert (Hne : a <> "b"%string). { intros C. apply (f_equal chars) in C. unfold a in C. rewrite chars_str in C. discriminate C. }
  assert (HA : accepted_chain 2 (named a "b"%string)) by (apply named_ok; [exact Hne|apply nonblank_long|reflexivity]).
  destruct (csv_head show a "b"%string Hne (nonblank_long _) eq_refl) as (r & E). eexists _, _. split; [exact HA|]. split; [exact E|].
  replace (csv_field (chars a)) with (long (S (S limit))) by (unfold a; rewrite chars_str; unfold csv_field; rewrite long_special; reflexivity).
  unfold from_file. replace (nonempty _) with true by reflexivity. unfold read_file, read_csv_mc, csv_read.
  change (csv_field (chars "b")) with ["b"%char].
  replace (long (S (S limit)) ++ comma :: ["b"%char] ++ cr :: lf :: r) with ((long (S (S limit)) ++ [comma; "b"%char]) ++ cr :: lf :: r) by (rewrite <- app_assoc; reflexivity).
  destruct (raw_first (long (S (S limit)) ++ [comma; "b"%char])) with (r := r) (acc := @nil ascii) as (ls & ->).
  - intros c Hc. apply in_app_iff in Hc. destruct Hc as [Hc|[<-|[<-|[]]]]; [apply (long_nl _ c Hc)|reflexivity|reflexivity].
  - cbn [rev app]. rewrite <- app_assoc. cbn [csv_lines]. destruct (nul_ok || _); [|reflexivity]. rewrite long_fresh by lia. reflexivity.
Qed.
Lemma csv_nul_name show float limit : exists c t, accepted_chain 2 c /\ (forall s, In s (ch_states c) -> length (chars s) <= 1) /\
  to_file show Csv c = Ok t /\ from_file float limit false Csv t = Err OtherErr.
Proof.
  set (a := String "000"%char EmptyString). destruct (csv_head show a "b"%string ltac:(discriminate) eq_refl eq_refl) as (r & E). eexists _, _.
  split; [apply (named_ok a "b"%string); [discriminate|reflexivity|reflexivity]|]. split; [intros s [<-|[<-|[]]]; apply le_n|]. split; [exact E|]. reflexivity.
Qed.
(** trailing white space of the names of a hidden Markov model *)
Lemma hmm_csv_trailing limit nul_ok : 5 <= limit -> exists o t, accepted_hmm 2 2 o /\ prints show0 float0 2 2 (ho_p o) /\ hmm_to_file show0 Csv o = Ok t /\
  hmm_from_file float0 limit nul_ok Csv t = Ok (mkrhobj (map (map Fin) (ho_p o)) (map (map Fin) (ho_e o)) ["a"; "b"]%string ["x"; "y"]%string) /\ ho_states o = ["a "; "b"]%string.
Proof.
  intros HL. exists (hIo "a " "b" "x" "y"). eexists. split; [apply hIo_ok; [|reflexivity]|]. { repeat constructor; cbn; intuition discriminate. }
  split; [apply pIo_prints|]. split; [vm_compute; reflexivity|]. split; [|reflexivity].
  do 5 (destruct limit as [|limit]; [lia|]). destruct nul_ok; vm_compute; reflexivity.
Qed.

(** ** TXT *)
Lemma txt_renamed limit nul_ok : exists t, accepted_chain 2 (named "a " "b") /\ prints show0 float0 2 2 pIo /\ to_file show0 Txt (named "a " "b") = Ok t /\
  from_file float0 limit nul_ok Txt t = Ok (as_object (named "a" "b")).
Proof. eexists. split; [apply named_ok; [discriminate|reflexivity|reflexivity]|]. split; [apply pIo_prints|]. split; [vm_compute; reflexivity|]. vm_compute; reflexivity. Qed.
Lemma txt_fails limit nul_ok : exists t, accepted_chain 2 (named "not raining" "raining") /\ prints show0 float0 2 2 pIo /\ to_file show0 Txt (named "not raining" "raining") = Ok t /\
  from_file float0 limit nul_ok Txt t = Err ValueErr.
Proof. eexists. split; [apply named_ok; [discriminate|reflexivity|reflexivity]|]. split; [apply pIo_prints|]. split; [vm_compute; reflexivity|]. vm_compute; reflexivity. Qed.

(** ** XML *)
Lemma xml_renamed limit nul_ok : exists t, accepted_chain 2 (named " a" "b") /\ prints show0 float0 2 2 pIo /\ to_file show0 Xml (named " a" "b") = Ok t /\
  from_file float0 limit nul_ok Xml t = Ok (as_object (named "a" "b")).
Proof. eexists. split; [apply named_ok; [discriminate|reflexivity|reflexivity]|]. split; [apply pIo_prints|]. split; [vm_compute; reflexivity|]. vm_compute; reflexivity. Qed.
Lemma xml_control limit nul_ok : exists t e, accepted_chain 2 (named (String "001"%char EmptyString) "b") /\ prints show0 float0 2 2 pIo /\
  to_file show0 Xml (named (String "001"%char EmptyString) "b") = Ok t /\ from_file float0 limit nul_ok Xml t = Err e.
Proof. eexists _, _. split; [apply named_ok; [discriminate|reflexivity|reflexivity]|]. split; [apply pIo_prints|]. split; [vm_compute; reflexivity|]. vm_compute; reflexivity. Qed.

(** ** What is read need not be a chain *)
Definition bad_txt : text := chars "a a 2.0
a b -1.0
b a 0.5
b b 0.5
".
Lemma from_file_negative limit nul_ok : from_file float0 limit nul_ok Txt bad_txt =
  Ok (mkrobj (map (map Fin) [[Q2Qc (2#1); (- 1q)%Qc]; [Q2Qc (1#2); Q2Qc (1#2)]]) ["a"; "b"]%string).
Proof. vm_compute. reflexivity. Qed.
Definition blank_csv : text := chars " ,b" ++ [cr; lf] ++ chars "0.5,0.5" ++ [cr; lf] ++ chars "0.25,0.75" ++ [cr; lf].
Lemma from_file_blank nul_ok : from_file float0 9 nul_ok Csv blank_csv = Ok (as_object (named " " "b")) /\ nonblank " " = false.
Proof. destruct nul_ok; split; vm_compute; reflexivity. Qed.
(** a hidden Markov model whose states are its symbols *)
Definition overlap : pydict := py_dict (hmm_entries (hIo "a" "b" "a" "b")).
Lemma overlapping_names : hmm_from_dictionary overlap = Ok (as_hmm_object (hIo "a" "b" "a" "b")).
Proof. vm_compute. reflexivity. Qed.

(** ** Graphs *)
Definition g_inf : pygraph := mkg false [(PStr "a", None); (PStr "b", None)]
  [(0, 1, (Some (PFloat PInf), None)); (1, 0, (Some (PInt 1), None)); (0, 0, (Some (PInt 1), None))].
Lemma graph_infinite : digraph 2 g_inf /\ nodes_named g_inf ["a"; "b"]%string /\
  from_graph (Some g_inf) = Ok (mkrobj [[Fin 0; NaN]; [Fin 1; Fin 0]] ["a"; "b"]%string).
Proof.
  split; [|split; [reflexivity|vm_compute; reflexivity]]. split; [reflexivity|]. split; [reflexivity|]. split; [repeat constructor; cbn; intuition discriminate|]. split; [repeat constructor; cbn; intuition discriminate|].
  intros i j a [E|[E|[E|[]]]]; inversion E; lia.
Qed.
Definition g_tiny : pygraph := mkg false [(PStr "a", None); (PStr "b", None)]
  [(0, 1, (Some (PFloat (Fin (Q2Qc (1 # 100000000)))), None)); (1, 0, (Some (PInt 1), None))].
Definition w_tiny : mat := [[0q; Q2Qc (1 # 100000000)]; [1q; 0q]].
Lemma graph_tiny : digraph 2 g_tiny /\ nodes_named g_tiny ["a"; "b"]%string /\ weights_of 2 g_tiny w_tiny /\
  from_graph (Some g_tiny) = Ok (mkrobj (map (map Fin) [[Q2Qc (1#2); Q2Qc (1#2)]; [1q; 0q]]) ["a"; "b"]%string).
Proof.
  split; [|split; [reflexivity|split; [|vm_compute; reflexivity]]].
  - split; [reflexivity|]. split; [reflexivity|]. split; [repeat constructor; cbn; intuition discriminate|]. split; [repeat constructor; cbn; intuition discriminate|].
    intros i j a [E|[E|[]]]; inversion E; lia.
  - split; [split; [reflexivity|intros r [<-|[<-|[]]]; reflexivity]|]. split.
    + intros i j a [E|[E|[]]]; inversion E; subst; eexists; (split; [reflexivity|]); (split; [|reflexivity]); [left; reflexivity|right; exists 1%Z; split; reflexivity].
    + intros [|[|i]] [|[|j]] Hi Hj H; try lia; try reflexivity; exfalso; eapply H; [left|right; left]; reflexivity.
Qed.

(** the round trips, one lemma per format *)
Lemma csv_trip show float limit nul_ok n c : accepted_chain n c -> prints show float n n (ch_p c) -> short show limit n n (ch_p c) ->
  (forall s, In s (ch_states c) -> length (chars s) <= limit /\ (nul_ok = true \/ no_nul s)) ->
  exists t, to_file show Csv c = Ok t /\ from_file float limit nul_ok Csv t = Ok (as_object c).
Proof. intros HA HP HS HN. apply (file_round_trip show float limit nul_ok n c HA HP Csv); [intros _; exact HS|exact HN]. Qed.
Lemma txt_trip show float limit nul_ok n c : accepted_chain n c -> prints show float n n (ch_p c) -> (forall s, In s (ch_states c) -> spaceless s) ->
  exists t, to_file show Txt c = Ok t /\ from_file float limit nul_ok Txt t = Ok (as_object c).
Proof. intros HA HP HN. apply (file_round_trip show float limit nul_ok n c HA HP Txt); [discriminate|exact HN]. Qed.
Lemma json_trip show float limit nul_ok n c : accepted_chain n c -> prints show float n n (ch_p c) ->
  exists t, to_file show Json c = Ok t /\ from_file float limit nul_ok Json t = Ok (as_object c).
Proof. intros HA HP. apply (file_round_trip show float limit nul_ok n c HA HP Json); [discriminate|intros s _; exact I]. Qed.
Lemma xml_trip show float limit nul_ok n c : accepted_chain n c -> prints show float n n (ch_p c) -> (forall s, In s (ch_states c) -> trimmed s /\ xml_text s) ->
  exists t, to_file show Xml c = Ok t /\ from_file float limit nul_ok Xml t = Ok (as_object c).
Proof. intros HA HP HN. apply (file_round_trip show float limit nul_ok n c HA HP Xml); [discriminate|exact HN]. Qed.

(** the validated constructor refuses common names *)
Lemma constructor_disjoint caller p e st sy o : ~ In caller hmm_instance_generators -> construct_hmm caller p e st sy = Ok o ->
  forall s, In s (ho_states o) -> ~ In s (ho_symbols o).
Proof. intros H1 H2. apply construct_hmm_iff in H2; [|exact H1]. destruct H2 as (n & k & P & E & l & m & _ & _ & _ & _ & _ & _ & _ & _ & _ & _ & H & ->). exact H. Qed.
