(** M_Query: model of the questions about single states (/repo/pydtmc/markov_chain.py 1381-1399 is_absorbing_state,
    1423-1441 is_cyclic_state, 1443-1461 is_recurrent_state, 1463-1481 is_transient_state, 2094-2114
    transition_probability; /repo/pydtmc/hidden_markov_model.py 319-340 emission_probability, 554-574
    transition_probability) and of the summaries (markov_chain.py 249-270, hidden_markov_model.py 190-202 __str__).
    Model only.  Exact arithmetic in place of doubles. *)
From Verif Require Export M_HmmMore M_Props M_Det.
Open Scope res_scope.
Open Scope nat_scope.

(** ** One state: the argument is a name or a number (validate_label) *)
Definition is_absorbing_state (m : mcenv) (v : pyval) : res bool :=
  k <- v_label v (en_names m) ;; Ok (memn k (absorbing_indices (en_p m))).
(** markov_chain.py 306-311 __cyclic_states_indices *)
Definition cyclic_states_indices (m : mcenv) : res (list nat) :=
  cs <- cyclic_classes_indices (en_p m) (en_names m) (en_nx m) (en_nxa m) ;; Ok (sort_nat (concat cs)).
Definition is_cyclic_state (m : mcenv) (v : pyval) : res bool :=
  k <- v_label v (en_names m) ;; l <- cyclic_states_indices m ;; Ok (memn k l).
Definition is_recurrent_state (m : mcenv) (v : pyval) : res bool :=
  k <- v_label v (en_names m) ;; Ok (memn k (recurrent_states_indices (en_p m) (en_comps m))).
Definition is_transient_state (m : mcenv) (v : pyval) : res bool :=
  k <- v_label v (en_names m) ;; Ok (memn k (transient_states_indices (en_p m) (en_comps m))).
Definition probability_of_move (p : mat) (names : list string) (target origin : pyval) : res Qc :=
  t <- v_label target names ;; o <- v_label origin names ;; Ok (mget p o t).
Definition emission_probability (h : hmm) (symbol state : pyval) : res Qc :=
  y <- v_label symbol (h_symbols h) ;; s <- v_label state (h_states h) ;; Ok (mget (h_e h) s y).

(** ** Summaries *)
Definition newline : string := String (Ascii.ascii_of_nat 10) "".
Definition yes_no (b : bool) : string := if b then "YES" else "NO".
(** markov_chain.py 249-270; str(self.period) is the decimal representation, the period being positive *)
Definition mc_str (m : mcenv) : res string :=
  let p := en_p m in
  e <- is_ergodic m ;;
  a <- is_aperiodic p (en_names m) (en_nx m) (en_nxa m) ;;
  d <- (if a then Ok 1%Z else period p (en_names m) (en_nx m) (en_nxa m)) ;;
  ab <- is_absorbing p ;;
  rv <- is_reversible m ;;
  Ok (String.concat newline
    [""%string; "DISCRETE-TIME MARKOV CHAIN"%string;
     (" SIZE:           " ++ dec (en_size m))%string;
     (" RANK:           " ++ dec (rank p))%string;
     (" CLASSES:        " ++ dec (length (communicating_indices (en_comps m))))%string;
     ("  > RECURRENT:   " ++ dec (length (recurrent_classes_indices p (en_comps m))))%string;
     ("  > TRANSIENT:   " ++ dec (length (transient_classes_indices p (en_comps m))))%string;
     (" ERGODIC:        " ++ yes_no e)%string;
     ("  > APERIODIC:   " ++ (if a then "YES" else "NO (" ++ dec (Z.to_nat d) ++ ")"))%string;
     ("  > IRREDUCIBLE: " ++ yes_no (is_irreducible (en_comps m)))%string;
     (" ABSORBING:      " ++ yes_no ab)%string;
     (" MONOTONE:       " ++ yes_no (is_stochastically_monotone p))%string;
     (" REGULAR:        " ++ yes_no (is_regular p))%string;
     (" REVERSIBLE:     " ++ yes_no rv)%string;
     (" SYMMETRIC:      " ++ yes_no (is_symmetric p))%string;
     ""%string]).
(** hidden_markov_model.py 190-202; [nx] as in M_Measures *)
Definition hmm_str (h : hmm) (nx : nxorder) : res string :=
  let n := length (h_states h) in
  let k := length (h_symbols h) in
  e <- hmm_is_ergodic h nx ;;
  Ok (String.concat newline
    [""%string; "HIDDEN MARKOV MODEL"%string;
     (" STATES:  " ++ dec n)%string;
     (" SYMBOLS: " ++ dec k)%string;
     (" ERGODIC: " ++ yes_no e)%string;
     (" REGULAR: " ++ yes_no (hmm_is_regular n k (h_e h)))%string;
     ""%string]).
