(** P_More: further property theorems about validators, readers and measures. *)
From Verif Require Import L_Tight L_Valid5 ExV ExIo L_MeasuresR.
Open Scope nat_scope.
Open Scope res_scope.

(** ** C09 a number in place of a vector *)
Theorem C09_flexible_scalar : forall v size w, is_number v = true ->
  (v_vector v Unconstrained true size = Ok w <-> exists n x, size = Some n /\ (n = 0 \/ number_value v (Fin x) /\ (0 <= x <= 1)%Qc) /\ w = repeat (fin (as_float v)) n).
Proof. exact v_vector_scalar. Qed.
Print Assumptions C09_flexible_scalar.
Example C09_scalar_example : v_vector (PFloat (Fin half)) Unconstrained true (Some 3) = Ok [half; half; half] /\ v_vector (PInt 2) Unconstrained true (Some 3) = Err ValueErr.
Proof. split; vm_compute; reflexivity. Qed.

(** ** C53 measures that need a unique stationary distribution *)
Theorem C53_not_unique_none : forall n m d s1 s2 x ts i j, env_ok n m -> recurrent n (edge (en_p m)) i -> recurrent n (edge (en_p m)) j -> ~ reach n (edge (en_p m)) i j -> length x = n ->
  time_correlations m (Ok d) s1 s2 ts = Ok None /\ time_relaxations m (Ok d) s1 x ts = Ok None.
Proof. exact time_none. Qed.
Print Assumptions C53_not_unique_none.
Example C53_not_unique_example : env_ok 2 (env cI2) /\ recurrent 2 (edge (ch_p cI2)) 0 /\ recurrent 2 (edge (ch_p cI2)) 1 /\ ~ reach 2 (edge (ch_p cI2)) 0 1.
Proof. exact cI2_two_classes. Qed.

(** ** C73 identity on arbitrary arguments *)
Theorem C73_identity_arguments : forall size states c, identity_py size states = Ok c <-> exists z, size = PInt z /\ (2 <= z)%Z /\ names_argument states (Z.to_nat z) (ch_states c) /\
  wf (Z.to_nat z) (Z.to_nat z) (ch_p c) /\ forall i j, i < Z.to_nat z -> j < Z.to_nat z -> mget (ch_p c) i j = delta i j.
Proof. exact identity_py_iff. Qed.
Print Assumptions C73_identity_arguments.
Example C73_arguments_example : identity_py (PInt 2) PNone = Ok (mkchain (eye 2) ["1"; "2"]%string) /\ identity_py (PInt 1) PNone = Err ValueErr.
Proof. split; vm_compute; reflexivity. Qed.

(** ** C91 enumerated arguments *)
Theorem C91_enumerator : forall v values s, v_enumerator v values = Ok s <-> v = PStr s /\ nonblank s = true /\ In s values.
Proof. exact v_enumerator_iff. Qed.
Print Assumptions C91_enumerator.
Example C91_enumerator_example : v_enumerator (PStr "viterbi") ["map"; "mle"; "viterbi"]%string = Ok "viterbi"%string /\ v_enumerator (PStr "x") ["map"; "mle"]%string = Err ValueErr.
Proof. split; vm_compute; reflexivity. Qed.

(** ** C66, C67 line ends and repeated records *)
Theorem C66_dos_line_ends : forall float ps t, ~ In cr t -> read_txt float ps (dos t) = read_txt float ps t.
Proof. exact read_txt_dos. Qed.
Print Assumptions C66_dos_line_ends.
Theorem C67_json_dos_line_ends : forall float ps t, ~ In cr t -> read_json float ps (dos t) = read_json float ps t.
Proof. exact read_json_dos. Qed.
Print Assumptions C67_json_dos_line_ends.
Theorem C66_last_record_counts : forall float ps t d, read_txt float ps t = Ok d -> exists rs, mapM (record float ps) (map (M_Io.words []) (M_Io.lines [] (universal t))) = Ok rs /\
  forall k, dget d k = last_value k rs.
Proof. exact read_txt_last. Qed.
Print Assumptions C66_last_record_counts.
Example C66_lines_example : dos (chars "a" ++ [lf]) = chars "a" ++ [cr; lf] /\
  read_txt float0 params_mc (chars "a b 0.5" ++ [lf] ++ chars "a b 1.0" ++ [lf]) = Ok [(["a"; "b"]%string, Fin 1)] /\
  read_txt float0 params_mc (dos (chars "a b 0.5" ++ [lf] ++ chars "a b 1.0" ++ [lf])) = Ok [(["a"; "b"]%string, Fin 1)].
Proof. repeat split; vm_compute; reflexivity. Qed.

(** ** C95, C96 what the readers of hidden Markov models return *)
Theorem C95_from_dictionary_rows : forall v o, hmm_from_dictionary v = Ok o -> exists n k P E, 2 <= n /\ 2 <= k /\ length (rh_states o) = n /\ length (rh_symbols o) = k /\
  rh_p o = map (map Fin) P /\ wf n n P /\ nearly_stochastic n n P /\ rh_e o = map (map Fin) E /\ wf n k E /\ nearly_stochastic n k E.
Proof. exact hmm_from_dictionary_rows. Qed.
Print Assumptions C95_from_dictionary_rows.
Theorem C96_from_file_rows : forall float limit nul_ok f t o, hmm_from_file float limit nul_ok f t = Ok o -> exists n k P E, 2 <= n /\ 2 <= k /\ length (rh_states o) = n /\ length (rh_symbols o) = k /\
  rh_p o = map (map Fin) P /\ wf n n P /\ nearly_stochastic n n P /\ rh_e o = map (map Fin) E /\ wf n k E /\ nearly_stochastic n k E.
Proof. exact hmm_from_file_rows. Qed.
Print Assumptions C96_from_file_rows.
Example C95_rows_example : is_ok (hmm_from_dictionary (py_dict (hmm_to_dictionary (hIo "a" "b" "x" "y")))) = true.
Proof. vm_compute. reflexivity. Qed.
