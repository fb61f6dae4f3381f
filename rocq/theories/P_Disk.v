(** P_Disk: properties of saved files, crashes and cuts (theorems only). *)
From Verif Require Import S_Disk S_Graph Ex ExIo ExDisk L_Disk L_Torn6.
Open Scope nat_scope.

(** ** C142 the format is taken from the extension *)
Theorem C142_extension_partial : forall name f, format_of name = Ok f <-> one_dot name /\ has_extension name f.
Proof. exact format_one_dot. Qed.
Print Assumptions C142_extension_partial.
Example C142_example : one_dot (chars ".hidden.CsV") /\ has_extension (chars ".hidden.CsV") Csv.
Proof. apply C142_extension_partial. reflexivity. Qed.
Theorem C142_dots_in_names_refuted : forall show float limit nul_ok sys fs p f c, has_extension (p_name p) f -> ~ one_dot (p_name p) ->
  save show sys p c = ([], Err ValueErr) /\ load float limit nul_ok sys fs p = Err ValueErr.
Proof. exact dotted_refused. Qed.
Print Assumptions C142_dots_in_names_refuted.
Example C142_refuted_example : has_extension (p_name (path_of (chars "/data/model.v2.csv"))) Csv /\ ~ one_dot (p_name (path_of (chars "/data/model.v2.csv"))).
Proof. exact (conj dotted_has dotted_not_one). Qed.

(** ** C143 saving on a disk that may crash *)
Theorem C143_saves : forall show float limit nul_ok sys n p f c, writable_chain show float limit nul_ok n f c -> format_of (p_name p) = Ok f ->
  p_abs p = false \/ is_dir sys (p_dir p) = true -> can_write sys p = true -> (forall ch, can_encode sys ch = true) ->
  exists es, save show sys p c = (es, Ok tt).
Proof. exact chain_saves. Qed.
Print Assumptions C143_saves.
Theorem C143_saved : forall show float limit nul_ok sys n p f c es fs, writable_chain show float limit nul_ok n f c -> format_of (p_name p) = Ok f ->
  save show sys p c = (es, Ok tt) -> can_read sys p = true ->
  load float limit nul_ok sys (perform es fs) p = Ok (as_object c) /\ forall q, q <> p -> contents (perform es fs) q = contents fs q.
Proof. exact chain_saved. Qed.
Print Assumptions C143_saved.
Theorem C143_refused : forall show sys p c,
  (forall f, format_of (p_name p) <> Ok f) \/ (p_abs p = true /\ is_dir sys (p_dir p) = false) \/ can_write sys p = false ->
  save show sys p c = ([], Err ValueErr).
Proof. exact save_refused. Qed.
Print Assumptions C143_refused.
Theorem C143_crash_partial : forall show float limit nul_ok sys n p f c es r fs fs', writable_chain show float limit nul_ok n f c -> format_of (p_name p) = Ok f ->
  save show sys p c = (es, r) -> crash fs es fs' ->
  (forall q, q <> p -> contents fs' q = contents fs q) /\
  (contents fs' p = contents fs p \/ exists t t', to_file show f c = Ok t /\ contents fs' p = Some t' /\ (t' = t \/ cut_short t' t)).
Proof. exact chain_crash. Qed.
Print Assumptions C143_crash_partial.
Example C143_example : writable_chain showD floatD 20 false 2 Csv cD /\ format_of (p_name csv_path) = Ok Csv /\ is_dir free (p_dir csv_path) = true /\ can_write free csv_path = true /\ can_read free csv_path = true.
Proof. split; [apply cD_writable|]. repeat split. Qed.
Theorem C143_not_atomic_refuted : forall show float limit nul_ok sys p c es r fs, save show sys p c = (es, r) -> es <> [] -> can_read sys p = true ->
  exists fs', crash fs es fs' /\ contents fs' p = Some [] /\ load float limit nul_ok sys fs' p = Err ValueErr.
Proof. exact chain_lost. Qed.
Print Assumptions C143_not_atomic_refuted.
Theorem C143_failed_save_refuted : forall nul_ok, exists es1 es2 fs1, writable_chain showD floatD 20 nul_ok 2 Csv cE
  /\ save showD plain_ascii csv_path cD = (es1, Ok tt) /\ fs1 = perform es1 [] /\ load floatD 20 nul_ok plain_ascii fs1 csv_path = Ok (as_object cD)
  /\ save showD plain_ascii csv_path cE = (es2, Err ValueErr) /\ contents (perform es2 fs1) csv_path = Some [] /\ load floatD 20 nul_ok plain_ascii (perform es2 fs1) csv_path = Err ValueErr.
Proof. exact failed_save. Qed.
Print Assumptions C143_failed_save_refuted.

(** ** C144 reading a chain after a crash *)
Theorem C144_after_crash_partial : forall show float limit nul_ok sys n p f c es r fs fs' o, writable_chain show float limit nul_ok n f c -> format_of (p_name p) = Ok f ->
  can_read sys p = true -> save show sys p c = (es, r) -> crash fs es fs' -> load float limit nul_ok sys fs' p = Ok o ->
  load float limit nul_ok sys fs p = Ok o \/ o = as_object c \/ ((f = Csv \/ f = Txt) /\ nearly_chain n c o).
Proof. exact chain_after_crash. Qed.
Print Assumptions C144_after_crash_partial.
Theorem C144_cut_file_partial : forall show float limit nul_ok n c f t p o, accepted_chain n c -> prints show float n n (ch_p c) ->
  (f = Csv -> short show limit n n (ch_p c)) -> (forall s, In s (ch_states c) -> name_fits limit nul_ok f s) ->
  to_file show f c = Ok t -> cut_short p t -> from_file float limit nul_ok f p = Ok o -> (f = Csv \/ f = Txt) /\ nearly_chain n c o.
Proof. exact chain_torn. Qed.
Print Assumptions C144_cut_file_partial.
Example C144_example : forall f, writable_chain showD floatD 20 false 2 f cD.
Proof. apply cD_writable. Qed.
Theorem C144_another_chain_refuted : forall nul_ok, exists es fs' o, writable_chain showD floatD 20 nul_ok 2 Csv cD
  /\ save showD free csv_path cD = (es, Ok tt) /\ crash [] es fs' /\ load floatD 20 nul_ok free fs' csv_path = Ok o
  /\ o = as_object (mkchain torn_p ["a"%string; "b"%string]) /\ o <> as_object cD.
Proof. exact torn_chain. Qed.
Print Assumptions C144_another_chain_refuted.

(** ** C145 hidden Markov models on a disk that may crash *)
Theorem C145_saves : forall show float limit nul_ok sys n k p f o, writable_hmm show float limit nul_ok n k f o -> format_of (p_name p) = Ok f ->
  p_abs p = false \/ is_dir sys (p_dir p) = true -> can_write sys p = true -> (forall ch, can_encode sys ch = true) ->
  exists es, hmm_save show sys p o = (es, Ok tt).
Proof. exact hmm_saves. Qed.
Print Assumptions C145_saves.
Theorem C145_saved : forall show float limit nul_ok sys n k p f o es fs, writable_hmm show float limit nul_ok n k f o -> format_of (p_name p) = Ok f ->
  hmm_save show sys p o = (es, Ok tt) -> can_read sys p = true ->
  hmm_load float limit nul_ok sys (perform es fs) p = Ok (as_hmm_object o) /\ forall q, q <> p -> contents (perform es fs) q = contents fs q.
Proof. exact hmm_saved. Qed.
Print Assumptions C145_saved.
Theorem C145_refused : forall show sys p o,
  (forall f, format_of (p_name p) <> Ok f) \/ (p_abs p = true /\ is_dir sys (p_dir p) = false) \/ can_write sys p = false ->
  hmm_save show sys p o = ([], Err ValueErr).
Proof. exact hmm_save_refused. Qed.
Print Assumptions C145_refused.
Theorem C145_crash_partial : forall show float limit nul_ok sys n k p f o es r fs fs', writable_hmm show float limit nul_ok n k f o -> format_of (p_name p) = Ok f ->
  hmm_save show sys p o = (es, r) -> crash fs es fs' ->
  (forall q, q <> p -> contents fs' q = contents fs q) /\
  (contents fs' p = contents fs p \/ exists t t', hmm_to_file show f o = Ok t /\ contents fs' p = Some t' /\ (t' = t \/ cut_short t' t)).
Proof. exact hmm_crash. Qed.
Print Assumptions C145_crash_partial.
Theorem C145_after_crash_partial : forall show float limit nul_ok sys n k p f o es r fs fs' o', writable_hmm show float limit nul_ok n k f o -> format_of (p_name p) = Ok f ->
  can_read sys p = true -> hmm_save show sys p o = (es, r) -> crash fs es fs' -> hmm_load float limit nul_ok sys fs' p = Ok o' ->
  hmm_load float limit nul_ok sys fs p = Ok o' \/ o' = as_hmm_object o \/ (f = Csv /\ nearly_hmm n k o o') \/ (f = Txt /\ same_but_last_row n k o o').
Proof. exact hmm_after_crash. Qed.
Print Assumptions C145_after_crash_partial.
Example C145_example : (forall f, writable_hmm showD floatD 20 false 2 3 f hD) /\ format_of (p_name txt_path) = Ok Txt.
Proof. split; [apply hD_writable|reflexivity]. Qed.
Theorem C145_not_atomic_refuted : forall show float limit nul_ok sys p o es r fs, hmm_save show sys p o = (es, r) -> es <> [] -> can_read sys p = true ->
  exists fs', crash fs es fs' /\ contents fs' p = Some [] /\ hmm_load float limit nul_ok sys fs' p = Err ValueErr.
Proof. exact hmm_lost. Qed.
Print Assumptions C145_not_atomic_refuted.
Theorem C145_another_row_refuted : forall nul_ok, exists es fs' o, writable_hmm showD floatD 20 nul_ok 2 3 Txt hD
  /\ hmm_save showD free txt_path hD = (es, Ok tt) /\ crash [] es fs' /\ hmm_load floatD 20 nul_ok free fs' txt_path = Ok o
  /\ o = as_hmm_object (mkhobj (ho_p hD) torn_e (ho_states hD) (ho_symbols hD)) /\ mget (ho_e hD) 1 1 = Q2Qc (1#100000) /\ mget torn_e 1 1 = 1q.
Proof. exact torn_hmm. Qed.
Print Assumptions C145_another_row_refuted.
