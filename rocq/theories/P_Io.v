(** P_Io: properties of dictionaries, graphs and files (theorems only). *)
From Verif Require Import S_Files S_Graph L_Io1 L_Io2 L_Io4 L_Files L_Files2 L_FilesR L_FilesS L_Graph L_Graph2 ExV ExIo.
Open Scope nat_scope.

(** ** C64 dictionary round trip *)
Theorem C64_dictionary_round_trip : forall n c, accepted_chain n c -> from_dictionary (py_dict (to_dictionary c)) = Ok (as_object c).
Proof. exact dictionary_round_trip. Qed.
Print Assumptions C64_dictionary_round_trip.
Example C64_example : accepted_chain 2 (named "a" "b").
Proof. apply named_ok; [discriminate|reflexivity|reflexivity]. Qed.

(** ** C65 CSV round trip *)
Theorem C65_csv_round_trip_partial : forall show float limit nul_ok n c, accepted_chain n c -> prints show float n n (ch_p c) ->
  short show limit n n (ch_p c) -> (forall s, In s (ch_states c) -> length (chars s) <= limit /\ (nul_ok = true \/ no_nul s)) ->
  exists t, to_file show Csv c = Ok t /\ from_file float limit nul_ok Csv t = Ok (as_object c).
Proof. exact csv_trip. Qed.
Print Assumptions C65_csv_round_trip_partial.
Theorem C65_csv_long_name_refuted : forall show float limit nul_ok, exists c t,
  accepted_chain 2 c /\ to_file show Csv c = Ok t /\ from_file float limit nul_ok Csv t = Err OtherErr.
Proof. exact csv_long_name. Qed.
Print Assumptions C65_csv_long_name_refuted.
Theorem C65_csv_nul_refuted : forall show float limit, exists c t,
  accepted_chain 2 c /\ (forall s, In s (ch_states c) -> length (chars s) <= 1) /\ to_file show Csv c = Ok t /\ from_file float limit false Csv t = Err OtherErr.
Proof. exact csv_nul_name. Qed.
Print Assumptions C65_csv_nul_refuted.
(** names with a comma, a quote and line breaks *)
Definition odd : string := str (chars "a,""" ++ [cr; lf; lf; cr] ++ chars " x,").
Example C65_example : accepted_chain 2 (named odd """") /\ prints show0 float0 2 2 pIo /\ short show0 20 2 2 pIo /\
  (forall s, In s (ch_states (named odd """")) -> length (chars s) <= 20 /\ (false = true \/ no_nul s)).
Proof.
  split; [apply named_ok; [discriminate|reflexivity|reflexivity]|]. split; [exact pIo_prints|]. split; [intros [|[|i]] [|[|j]] Hi Hj; try lia; vm_compute; lia|].
  intros s [<-|[<-|[]]]; (split; [vm_compute; lia|right; intros H; vm_compute in H; intuition discriminate]).
Qed.

(** ** C66 text round trip *)
Theorem C66_txt_round_trip_partial : forall show float limit nul_ok n c, accepted_chain n c -> prints show float n n (ch_p c) ->
  (forall s, In s (ch_states c) -> spaceless s) ->
  exists t, to_file show Txt c = Ok t /\ from_file float limit nul_ok Txt t = Ok (as_object c).
Proof. exact txt_trip. Qed.
Print Assumptions C66_txt_round_trip_partial.
Theorem C66_txt_renames_refuted : forall limit nul_ok, exists t,
  accepted_chain 2 (named "a " "b") /\ prints show0 float0 2 2 pIo /\ to_file show0 Txt (named "a " "b") = Ok t /\
  from_file float0 limit nul_ok Txt t = Ok (as_object (named "a" "b")).
Proof. exact txt_renamed. Qed.
Print Assumptions C66_txt_renames_refuted.
Theorem C66_txt_fails_refuted : forall limit nul_ok, exists t,
  accepted_chain 2 (named "not raining" "raining") /\ prints show0 float0 2 2 pIo /\ to_file show0 Txt (named "not raining" "raining") = Ok t /\
  from_file float0 limit nul_ok Txt t = Err ValueErr.
Proof. exact txt_fails. Qed.
Print Assumptions C66_txt_fails_refuted.
Example C66_example : accepted_chain 2 (named "a,b" "c") /\ prints show0 float0 2 2 pIo /\ (forall s, In s (ch_states (named "a,b" "c")) -> spaceless s).
Proof.
  split; [apply named_ok; [discriminate|reflexivity|reflexivity]|]. split; [exact pIo_prints|].
  intros s [<-|[<-|[]]] c H; cbn in H; intuition (subst; reflexivity).
Qed.

(** ** C67 JSON and XML round trips *)
Theorem C67_json_round_trip : forall show float limit nul_ok n c, accepted_chain n c -> prints show float n n (ch_p c) ->
  exists t, to_file show Json c = Ok t /\ from_file float limit nul_ok Json t = Ok (as_object c).
Proof. exact json_trip. Qed.
Print Assumptions C67_json_round_trip.
Theorem C67_xml_round_trip_partial : forall show float limit nul_ok n c, accepted_chain n c -> prints show float n n (ch_p c) ->
  (forall s, In s (ch_states c) -> trimmed s /\ xml_text s) ->
  exists t, to_file show Xml c = Ok t /\ from_file float limit nul_ok Xml t = Ok (as_object c).
Proof. exact xml_trip. Qed.
Print Assumptions C67_xml_round_trip_partial.
Theorem C67_xml_renames_refuted : forall limit nul_ok, exists t,
  accepted_chain 2 (named " a" "b") /\ prints show0 float0 2 2 pIo /\ to_file show0 Xml (named " a" "b") = Ok t /\
  from_file float0 limit nul_ok Xml t = Ok (as_object (named "a" "b")).
Proof. exact xml_renamed. Qed.
Print Assumptions C67_xml_renames_refuted.
Theorem C67_xml_control_refuted : forall limit nul_ok, exists t e,
  accepted_chain 2 (named (String "001"%char EmptyString) "b") /\ prints show0 float0 2 2 pIo /\
  to_file show0 Xml (named (String "001"%char EmptyString) "b") = Ok t /\ from_file float0 limit nul_ok Xml t = Err e.
Proof. exact xml_control. Qed.
Print Assumptions C67_xml_control_refuted.
Example C67_example : let c := named "a<""&' >b" "c" in accepted_chain 2 c /\ prints show0 float0 2 2 pIo /\ (forall s, In s (ch_states c) -> trimmed s /\ xml_text s).
Proof.
  split; [apply named_ok; [discriminate|reflexivity|reflexivity]|]. split; [exact pIo_prints|].
  assert (G : forall s x u y v, chars s = x :: u -> chars s = v ++ [y] -> is_space x = false -> is_space y = false -> trimmed s).
  { intros s x u y v E1 E2 H1 H2 c r [E|E]; [rewrite E in E1; congruence|]. rewrite E in E2. apply app_inj_tail in E2. destruct E2; congruence. }
  intros s [<-|[<-|[]]]; (split; [|intros c H; cbn in H; intuition (subst; left; vm_compute; lia)]); [apply (G _ "a"%char (chars "<""&' >b") "b"%char (chars "a<""&' >"))|apply (G _ "c"%char [] "c"%char [])]; reflexivity.
Qed.

(** ** C68 graph round trip *)
Theorem C68_graph_round_trip : forall n c, 2 <= n -> stochastic n (ch_p c) -> names_ok n (ch_states c) ->
  from_graph (Some (to_graph c)) = Ok (as_object c).
Proof. exact graph_round_trip. Qed.
Print Assumptions C68_graph_round_trip.
(** a chain whose rows only nearly sum to one comes back with its rows divided by their sums *)
Theorem C68_graph_round_trip_any : forall n c, accepted_chain n c ->
  exists P, from_graph (Some (to_graph c)) = Ok (mkrobj (map (map Fin) P) (ch_states c)) /\
    wf n n P /\ forall i j, i < n -> j < n -> (mget P i j * sumn n (fun j => mget (ch_p c) i j))%Qc = mget (ch_p c) i j.
Proof. exact graph_round_trip_any. Qed.
Print Assumptions C68_graph_round_trip_any.
Example C68_example : stochastic 2 (ch_p (named "a" "b")) /\ names_ok 2 (ch_states (named "a" "b")).
Proof. split; [exact pIo_stochastic|apply named_names; [discriminate|reflexivity|reflexivity]]. Qed.

(** ** C12 relative weights, from_graph *)
Theorem C12_from_graph_partial : forall n g l W, digraph n g -> 2 <= n -> nodes_named g l -> names_ok n l -> weights_of n g W ->
  exists P, from_graph (Some g) = Ok (mkrobj (map (map Fin) P) l) /\ rows_divided n n W P.
Proof. exact from_graph_ok. Qed.
Print Assumptions C12_from_graph_partial.
Theorem C12_from_graph_refuted : digraph 2 g_tiny /\ nodes_named g_tiny ["a"; "b"]%string /\ weights_of 2 g_tiny w_tiny /\
  from_graph (Some g_tiny) = Ok (mkrobj (map (map Fin) [[Q2Qc (1#2); Q2Qc (1#2)]; [1q; 0q]]) ["a"; "b"]%string).
Proof. exact graph_tiny. Qed.
Print Assumptions C12_from_graph_refuted.
Example C12_from_graph_example : digraph 2 g_tiny /\ nodes_named g_tiny ["a"; "b"]%string /\ names_ok 2 ["a"; "b"]%string /\ weights_of 2 g_tiny w_tiny.
Proof. destruct graph_tiny as (H1 & H2 & H3 & _). split; [exact H1|]. split; [exact H2|]. split; [apply named_names; [discriminate|reflexivity|reflexivity]|exact H3]. Qed.

(** ** C94 accept set of from_dictionary *)
Theorem C94_from_dictionary_iff : forall entries o, is_pydict entries -> (from_dictionary (Some entries) = Ok o <->
  exists n l P, 2 <= n /\ names_ok n l /\ table_of entries n l P /\ diagonal_order entries n l /\
    wf n n P /\ probabilities n n P /\ nearly_stochastic n n P /\ o = mkrobj (map (map Fin) P) l).
Proof. exact from_dictionary_iff. Qed.
Print Assumptions C94_from_dictionary_iff.
Example C94_example : let entries := [(PTuple [PStr "b"; PStr "b"], PFloat (Fin (Q2Qc (1#2)))); (PTuple [PStr "a"; PStr "b"], PInt 1);
    (PTuple [PStr "a"; PStr "a"], PInt 0); (PTuple [PStr "b"; PStr "a"], PFloat (Fin (Q2Qc (1#2))))] in
  is_pydict entries /\ from_dictionary (Some entries) = Ok (mkrobj [[Fin (Q2Qc (1#2)); Fin (Q2Qc (1#2))]; [Fin 1; Fin 0]] ["b"; "a"]%string).
Proof. split; [repeat constructor; cbn; intuition discriminate|vm_compute; reflexivity]. Qed.

(** ** C95 dictionaries of hidden Markov models *)
Theorem C95_hmm_dictionary_round_trip : forall n k o, accepted_hmm n k o -> hmm_from_dictionary (py_dict (hmm_to_dictionary o)) = Ok (as_hmm_object o).
Proof. exact hmm_dictionary_round_trip. Qed.
Print Assumptions C95_hmm_dictionary_round_trip.
Example C95_example : accepted_hmm 2 2 (hIo "a" "b" "x" "y").
Proof. apply hIo_ok; [repeat constructor; cbn; intuition discriminate|reflexivity]. Qed.

(** ** C96 files of hidden Markov models *)
Theorem C96_hmm_file_round_trip_partial : forall show float limit nul_ok n k o, accepted_hmm n k o ->
  prints show float n n (ho_p o) -> prints show float n k (ho_e o) -> forall f,
  (f = Csv -> short show limit n n (ho_p o) /\ short show limit n k (ho_e o)) ->
  (forall s, In s (ho_states o) \/ In s (ho_symbols o) -> hmm_name_fits limit nul_ok f s) ->
  exists t, hmm_to_file show f o = Ok t /\ hmm_from_file float limit nul_ok f t = Ok (as_hmm_object o).
Proof. exact hmm_file_round_trip. Qed.
Print Assumptions C96_hmm_file_round_trip_partial.
Theorem C96_hmm_csv_renames_refuted : forall limit nul_ok, 5 <= limit -> exists o t,
  accepted_hmm 2 2 o /\ prints show0 float0 2 2 (ho_p o) /\ hmm_to_file show0 Csv o = Ok t /\
  hmm_from_file float0 limit nul_ok Csv t = Ok (mkrhobj (map (map Fin) (ho_p o)) (map (map Fin) (ho_e o)) ["a"; "b"]%string ["x"; "y"]%string) /\
  ho_states o = ["a "; "b"]%string.
Proof. exact hmm_csv_trailing. Qed.
Print Assumptions C96_hmm_csv_renames_refuted.
Example C96_example : let o := hIo "a" "b" "x,z" "y" in accepted_hmm 2 2 o /\ prints show0 float0 2 2 (ho_p o) /\ short show0 9 2 2 (ho_p o) /\
  forall s, In s (ho_states o ++ ho_symbols o) -> hmm_name_fits 9 false Csv s /\ hmm_name_fits 9 false Txt s.
Proof.
  split; [apply hIo_ok; [repeat constructor; cbn; intuition discriminate|reflexivity]|]. split; [exact pIo_prints|]. split; [intros [|[|i]] [|[|j]] Hi Hj; try lia; vm_compute; lia|].
  assert (G : forall s y v, chars s = v ++ [y] -> is_space y = false -> forall c r, chars s = r ++ [c] -> is_space c = false).
  { intros s y v E H c r E'. rewrite E' in E. apply app_inj_tail in E. destruct E; congruence. }
  intros s [<-|[<-|[<-|[<-|[]]]]]; (split; [split; [vm_compute; lia|split; [right; intros H; vm_compute in H; intuition discriminate|]]|intros c H; cbn in H; intuition (subst; reflexivity)]).
  - apply (G _ "a"%char []); reflexivity.
  - apply (G _ "b"%char []); reflexivity.
  - apply (G _ "z"%char (chars "x,")); reflexivity.
  - apply (G _ "y"%char []); reflexivity.
Qed.

(** ** C97 graphs of hidden Markov models *)
Theorem C97_hmm_graph_round_trip : forall n k o, 2 <= n -> 2 <= k -> row_stochastic n n (ho_p o) -> row_stochastic n k (ho_e o) ->
  names_ok n (ho_states o) -> names_ok k (ho_symbols o) -> (forall s, In s (ho_states o) -> ~ In s (ho_symbols o)) ->
  hmm_from_graph (Some (hmm_to_graph o)) = Ok (as_hmm_object o).
Proof. exact hmm_graph_round_trip. Qed.
Print Assumptions C97_hmm_graph_round_trip.
Example C97_example : let o := hIo "a" "b" "x" "y" in row_stochastic 2 2 (ho_p o) /\ row_stochastic 2 2 (ho_e o) /\ accepted_hmm 2 2 o.
Proof. split; [exact pIo_stochastic|]. split; [exact pIo_stochastic|]. apply hIo_ok; [repeat constructor; cbn; intuition discriminate|reflexivity]. Qed.

(** ** C98 accept set of from_graph *)
Theorem C98_from_graph_iff : forall n g, digraph n g ->
  ((exists o, from_graph (Some g) = Ok o) <->
   2 <= n /\ (forall x, In x (g_nodes g) -> exists s, fst x = PStr s /\ nonblank s = true) /\
   (forall i j a, In (i, j, a) (g_edges g) -> exists v x, fst a = Some v /\ number_value v x /\ (x = PInf \/ exists q, x = Fin q /\ (0 < q)%Qc))).
Proof. exact from_graph_iff. Qed.
Print Assumptions C98_from_graph_iff.
Example C98_example : digraph 2 g_inf /\ exists o, from_graph (Some g_inf) = Ok o.
Proof. destruct graph_infinite as (H1 & _ & H2). split; [exact H1|eexists; exact H2]. Qed.

(** ** C99 from_graph returns chains *)
Theorem C99_from_graph_stochastic_partial : forall n g l W, digraph n g -> 2 <= n -> nodes_named g l -> names_ok n l -> weights_of n g W ->
  exists P, from_graph (Some g) = Ok (mkrobj (map (map Fin) P) l) /\ stochastic n P.
Proof. exact from_graph_stochastic. Qed.
Print Assumptions C99_from_graph_stochastic_partial.
Theorem C99_from_graph_infinite_refuted : digraph 2 g_inf /\ nodes_named g_inf ["a"; "b"]%string /\
  from_graph (Some g_inf) = Ok (mkrobj [[Fin 0; NaN]; [Fin 1; Fin 0]] ["a"; "b"]%string).
Proof. exact graph_infinite. Qed.
Print Assumptions C99_from_graph_infinite_refuted.

(** ** C100 from_file returns chains *)
Theorem C100_from_file_partial : forall float limit nul_ok f t o, from_file float limit nul_ok f t = Ok o ->
  exists n P, 2 <= n /\ length (r_states o) = n /\ NoDup (r_states o) /\ r_p o = map (map Fin) P /\ wf n n P /\ nearly_stochastic n n P.
Proof. exact from_file_shape. Qed.
Print Assumptions C100_from_file_partial.
Theorem C100_negative_refuted : forall limit nul_ok, from_file float0 limit nul_ok Txt bad_txt =
  Ok (mkrobj (map (map Fin) [[Q2Qc (2#1); (- 1q)%Qc]; [Q2Qc (1#2); Q2Qc (1#2)]]) ["a"; "b"]%string).
Proof. exact from_file_negative. Qed.
Print Assumptions C100_negative_refuted.
Theorem C100_blank_refuted : forall nul_ok, from_file float0 9 nul_ok Csv blank_csv = Ok (as_object (named " " "b")) /\ nonblank " " = false.
Proof. exact from_file_blank. Qed.
Print Assumptions C100_blank_refuted.

(** ** C101 states and symbols are different *)
Theorem C101_constructor_partial : forall caller p e st sy o, ~ In caller hmm_instance_generators -> construct_hmm caller p e st sy = Ok o ->
  forall s, In s (ho_states o) -> ~ In s (ho_symbols o).
Proof. exact constructor_disjoint. Qed.
Print Assumptions C101_constructor_partial.
Theorem C101_overlap_refuted : hmm_from_dictionary overlap = Ok (as_hmm_object (hIo "a" "b" "a" "b")).
Proof. exact overlapping_names. Qed.
Print Assumptions C101_overlap_refuted.
Example C101_example : ~ In "main"%string hmm_instance_generators /\ exists o, construct_hmm "main" pyOk pyOk pyNames PNone = Ok o.
Proof. split; [vm_compute; intuition discriminate|eexists; vm_compute; reflexivity]. Qed.
