(** M_HmmMore: model of HiddenMarkovModel.simulate, next and is_ergodic
    (/repo/pydtmc/hidden_markov_model.py 342-385, 447-481, 213-223) on top of M_Hmm.  Model only.
    The random generator is an argument: [r0] is the integer drawn for a missing initial state, [c0] the uniform
    draw behind rng.choice, [pr] and [er] the two arrays of uniform draws.  The seed is not modelled. *)
From Verif Require Export M_Hmm M_Validation M_Measures.
Close Scope R_scope.
Open Scope nat_scope.
Open Scope res_scope.

(** indices, or the names they stand for *)
Inductive labels_out := Indices (l : list nat) | Names (l : list string).
Definition label_out (index : bool) (names : list string) (i : nat) : labels_out :=
  if index then Indices [i] else Names [nth i names ""%string].
Definition labels_of (index : bool) (names : list string) (l : list nat) : labels_out :=
  if index then Indices l else Names (map (fun i => nth i names ""%string) l).
(** lines 447-481 simulate; the three labels may be missing (None) *)
Definition v_label_opt (v : option pyval) (labels : list string) : res (option nat) :=
  match v with None => Ok None | Some v => i <- v_label v labels ;; Ok (Some i) end.
Definition simulate_hmm (h : hmm) (steps : pyval) (initial fs fy : option pyval) (output_indices : pyval)
    (r0 : nat) (c0 : Qc) (pr er : nat -> Qc) : res (labels_out * labels_out) :=
  steps <- v_integer steps (Some (2%Z, false)) None ;;
  i <- v_label_opt initial (h_states h) ;;
  fs <- v_label_opt fs (h_states h) ;;
  fy <- v_label_opt fy (h_symbols h) ;;
  b <- v_boolean output_indices ;;
  let i := match i with None => Nat.modulo r0 (nrows (h_p h)) | Some i => i end in
  let r := hmm_simulate h (Z.to_nat steps) i fs fy c0 pr er in
  Ok (labels_of b (h_states h) (fst r), labels_of b (h_symbols h) (snd r)).
(** lines 342-385 next: one step of the simulation, of which the last state and the last symbol are used *)
Inductive next_out := OneOut (a : labels_out) | TwoOut (a b : labels_out).
Definition next_hmm (h : hmm) (initial target output_index : pyval) (c0 : Qc) (pr er : nat -> Qc) : res next_out :=
  t <- v_enumerator target ["both"; "state"; "symbol"]%string ;;
  i <- v_label initial (h_states h) ;;
  b <- v_boolean output_index ;;
  let r := hmm_simulate h 1 i None None c0 pr er in
  let s := label_out b (h_states h) (last (fst r) 0) in
  let y := label_out b (h_symbols h) (last (snd r) 0) in
  if String.eqb t "state" then Ok (OneOut s) else if String.eqb t "symbol" then Ok (OneOut y) else Ok (TwoOut s y).
(** lines 213-223 is_ergodic: the transition matrix and the state names go through the constructor of MarkovChain
    (markov_chain.py 119-147), called from outside its instance generators, hence validated; [nx] as in M_Measures. *)
Definition float_array (M : mat) : pyval := PArr (mkarr [nrows M; ncols M] KFloat (fun idx => (Fin (mget M (nth 0 idx 0) (nth 1 idx 0)), Fin 0))).
Definition hmm_is_ergodic (h : hmm) (nx : nxorder) : res bool :=
  p <- v_transition_matrix (float_array (h_p h)) None ;;
  st <- v_labels_input (PList (map PStr (h_states h))) (Some (nrows p)) ;;
  b <- is_ergodic (mkenv p st nx true) ;;
  Ok (b && mforall (Qcltb 0) (h_e h)).
