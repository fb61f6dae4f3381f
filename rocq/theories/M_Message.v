(** M_Message: the messages of validation errors. *)
From Coq Require Import List String Ascii Bool.
Import ListNotations.
Local Open Scope string_scope.

(** str.strip: the blanks of ASCII *)
Definition blank (c : ascii) : bool :=
  let k := nat_of_ascii c in (Nat.leb 9 k && Nat.leb k 13) || (Nat.leb 28 k && Nat.leb k 32).
Fixpoint lstrip (s : string) : string :=
  match s with EmptyString => EmptyString | String c r => if blank c then lstrip r else s end.
Fixpoint rstrip (s : string) : string :=
  match s with
  | EmptyString => EmptyString
  | String c r => match rstrip r with EmptyString => if blank c then EmptyString else String c EmptyString | t => String c t end
  end.
Definition strip (s : string) : string := rstrip (lstrip s).
(** the text before the first [a]: s.split(a, 1)[0], and s[:s.index(a)] when [a] occurs *)
Fixpoint before (a : ascii) (s : string) : string :=
  match s with EmptyString => EmptyString | String c r => if Ascii.eqb c a then EmptyString else String c (before a r) end.
(** str.replace: from left to right, without overlaps; [skip] characters of the last match are still to be passed over *)
Fixpoint replace_go (pat rep s : string) (skip : nat) : string :=
  match s with
  | EmptyString => EmptyString
  | String c r =>
      match skip with
      | S k => replace_go pat rep r k
      | O => if prefix pat s then rep ++ replace_go pat rep r (length pat - 1) else String c (replace_go pat rep r 0)
      end
  end.
Definition replace (pat rep s : string) : string := replace_go pat rep s 0.

(** what reaches the caller *)
Inductive raised := RValidation (message : string) | RType.

(** utilities.py 192-202 create_validation_error: [message] is str(ex), [context] is trace[0][4], the line of source that
    was being executed (inspect.trace() has one line of context), or None when the source is not available, where
    str.join raises TypeError *)
Definition argument (context : list string) : string := before "," (strip (before "=" (concat "" context))).
Definition create_validation_error (message : string) (context : option (list string)) : raised :=
  match context with
  | None => RType
  | Some l => RValidation (replace "@arg@" (argument l) message)
  end.

(** the statements that validate a parameter in markov_chain.py, hidden_markov_model.py, plotting.py and assessments.py
    (the lines with a call of a _validate function, without indentation and without repetitions), each with the
    parameter it validates *)
Definition statements : list (string * string) :=
  [
   ("alpha", "alpha = _validate_float(alpha)");
   ("approximation_type", "approximation_type = _validate_enumerator(approximation_type, ['adda-cooper', 'rouwenhorst', 'tauchen', 'tauchen-hussey'])");
   ("blocks", "blocks = _validate_integer(blocks, lower_limit=(1, False))");
   ("boundary_condition", "boundary_condition = _validate_boundary_condition(boundary_condition)");
   ("committor_type", "committor_type = _validate_enumerator(committor_type, ['backward', 'forward'])");
   ("cutoff_type", "cutoff_type = _validate_enumerator(cutoff_type, ['natural', 'traditional'])");
   ("d", "d = _validate_dictionary(d)");
   ("d", "d = _validate_dictionary(d, ['P', 'E'])");
   ("diagonal_bias_factor", "diagonal_bias_factor = None if diagonal_bias_factor is None else _validate_float(diagonal_bias_factor, lower_limit=(0.0, True))");
   ("diffusion_factor", "diffusion_factor = _validate_integer(diffusion_factor, lower_limit=(1, False), upper_limit=(size, False))");
   ("dpi", "dpi = _validate_dpi(dpi)");
   ("e", "e = _validate_emission_matrix(e, p.shape[1])");
   ("e_guess", "e_guess = _validate_emission_matrix(e_guess, p_guess.shape[1])");
   ("e_mask", "e_mask = _np.full((n, k), _np.nan, dtype=float) if e_mask is None else _validate_mask(e_mask, n, k)");
   ("e_zeros", "e_zeros = _validate_integer(e_zeros, lower_limit=(0, False))");
   ("edges_label", "edges_label = _validate_boolean(edges_label)");
   ("f", "f = _validate_random_distribution(f, rng, MarkovChain.__random_distributions)");
   ("f", "f = _validate_transition_function(f)");
   ("file_path", "file_path, file_extension = _validate_file_path(file_path, ['.csv', '.json', '.xml', '.txt'], False)");
   ("file_path", "file_path, file_extension = _validate_file_path(file_path, ['.csv', '.json', '.xml', '.txt'], True)");
   ("final_state", "final_state = None if final_state is None else _validate_label(final_state, self.__states)");
   ("final_symbol", "final_symbol = None if final_symbol is None else _validate_label(final_symbol, self.__symbols)");
   ("first_passage_states", "first_passage_states = _validate_labels_current(first_passage_states, self.__states, False)");
   ("first_passage_states", "first_passage_states = _validate_labels_current(first_passage_states, self.__states, True)");
   ("fitting_param", "fitting_param = _validate_boolean(fitting_param)");
   ("fitting_param", "fitting_param = _validate_hyperparameter(fitting_param, len(possible_states))");
   ("fitting_type", "fitting_type = _validate_enumerator(fitting_type, ['baum-welch', 'map', 'mle', 'viterbi'])");
   ("fitting_type", "fitting_type = _validate_enumerator(fitting_type, ['map', 'mle'])");
   ("force_standard", "force_standard = _validate_boolean(force_standard)");
   ("gamma", "gamma = _validate_float(gamma, lower_limit=(0.0, True), upper_limit=(1.0, True))");
   ("graph", "graph = _validate_graph(graph)");
   ("graph", "graph = _validate_graph(graph, 2, [('type', ('E', 'P'))])");
   ("hmm", "hmm = _validate_hidden_markov_model(hmm)");
   ("inertial_weights", "inertial_weights = _validate_vector(inertial_weights, 'unconstrained', True, self.__size)");
   ("initial_distribution", "initial_distribution = _np.full(self.__size, 1.0 / self.__size, dtype=float) if initial_distribution is None else _validate_vector(initial_distribution, 'stochastic', False, self.__size)");
   ("initial_state", "initial_state = None if initial_state is None else _validate_label(initial_state, hmm.states)");
   ("initial_state", "initial_state = None if initial_state is None else _validate_label(initial_state, model.states)");
   ("initial_state", "initial_state = _validate_label(initial_state, self.__states)");
   ("initial_state", "initial_state = rng.randint(0, self.__size) if initial_state is None else _validate_label(initial_state, self.__states)");
   ("initial_state", "initial_state = rng.randint(0, self.__size[0]) if initial_state is None else _validate_label(initial_state, self.__states)");
   ("initial_status", "initial_status = None if initial_status is None else _validate_status(initial_status, model.states)");
   ("initial_status", "initial_status = _np.full(len(possible_states), 1.0 / len(possible_states), dtype=float) if initial_status is None else _validate_status(initial_status, possible_states)");
   ("initial_status", "initial_status = _np.full(self.__size, 1.0 / self.__size, dtype=float) if initial_status is None else _validate_status(initial_status, self.__states)");
   ("initial_status", "initial_status = _np.full(self.__size[0], 1.0 / self.__size[0], dtype=float) if initial_status is None else _validate_status(initial_status, self.__states)");
   ("interval", "interval = _validate_integer(interval, lower_limit=(1, False))");
   ("jump", "jump = _validate_integer(jump, lower_limit=(0, True))");
   ("k", "k = ((0.5 + (rho / 4.0)) * sigma) + ((1 - (0.5 + (rho / 4.0))) * (sigma / _np.sqrt(1.0 - rho**2.0))) if k is None else _validate_float(k, lower_limit=(0.0, True))");
   ("k", "k = 3.0 if k is None else _validate_float(k, lower_limit=(1.0, False))");
   ("k", "k = _validate_integer(k, lower_limit=(2, False))");
   ("m", "m = _validate_matrix(m)");
   ("mask", "mask = _np.full((size, size), _np.nan, dtype=float) if mask is None else _validate_mask(mask, size, size)");
   ("mc", "mc = _validate_markov_chain(mc)");
   ("me", "me = _validate_matrix(me, rows=mp.shape[1])");
   ("method", "method = _validate_enumerator(method, ['adaptive', 'spectral-bottom-up', 'spectral-top-down'])");
   ("model", "model = _validate_enumerator(model, ['bernoulli-laplace', 'ehrenfest'])");
   ("model", "model = _validate_enumerator(model, ['moran', 'wright-fisher'])");
   ("model", "model = _validate_model(model)");
   ("models", "models = _validate_models(models)");
   ("mp", "mp = _validate_matrix(mp)");
   ("n", "n = _validate_integer(n, lower_limit=(1, False))");
   ("n", "n = _validate_integer(n, lower_limit=(2, False))");
   ("n", "n = _validate_integer(n, lower_limit=(2, False), upper_limit=(500, False))");
   ("names", "names = _create_models_names(models) if names is None else _validate_strings(names, len(models))");
   ("nodes_color", "nodes_color = _validate_boolean(nodes_color)");
   ("nodes_shape", "nodes_shape = _validate_boolean(nodes_shape)");
   ("order", "order = _validate_integer(order, lower_limit=(2, False))");
   ("origins", "origins = _validate_labels_current(origins, self.__states, True)");
   ("other", "other = _validate_markov_chain(other, self.__size)");
   ("output_index", "output_index = _validate_boolean(output_index)");
   ("output_indices", "output_indices = _validate_boolean(output_indices)");
   ("output_last", "output_last = _validate_boolean(output_last)");
   ("p", "p = _validate_transition_matrix(p)");
   ("p", "p = _validate_vector(p, 'creation', False)");
   ("p_guess", "p_guess = _validate_transition_matrix(p_guess, len(possible_states))");
   ("p_mask", "p_mask = _np.full((n, n), _np.nan, dtype=float) if p_mask is None else _validate_mask(p_mask, n, n)");
   ("p_zeros", "p_zeros = _validate_integer(p_zeros, lower_limit=(0, False))");
   ("palette", "palette = _validate_enumerator(palette, list(_mplp.colormaps))");
   ("partitions", "partitions = _validate_partitions(partitions, self.__states)");
   ("plot_type", "plot_type = _validate_enumerator(plot_type, ['heatmap', 'histogram', 'matrix'])");
   ("plot_type", "plot_type = _validate_enumerator(plot_type, ['heatmap', 'projection'])");
   ("possible_states", "possible_states = _validate_labels_input(possible_states)");
   ("possible_symbols", "possible_symbols = _validate_labels_input(possible_symbols)");
   ("prediction_type", "prediction_type = _validate_enumerator(prediction_type, ['map', 'mle', 'viterbi'])");
   ("q", "q = _validate_vector(q, 'annihilation', False)");
   ("quadrature_interval", "quadrature_interval = (0.0, 1.0) if quadrature_interval is None else _validate_interval(quadrature_interval)");
   ("quadrature_type", "quadrature_type = _validate_enumerator(quadrature_type, ['gauss-chebyshev', 'gauss-legendre', 'niederreiter', 'newton-cotes', 'simpson-rule', 'trapezoid-rule'])");
   ("redistributions", "redistributions = _validate_integer(redistributions, lower_limit=(1, False))");
   ("rewards", "rewards = _validate_rewards(rewards, self.__size)");
   ("rho", "rho = _validate_float(rho, lower_limit=(-1.0, False), upper_limit=(1.0, False))");
   ("s", "s = _validate_float(s, lower_limit=(-1.0, False))");
   ("s", "s = _validate_integer(s, lower_limit=(2, False), upper_limit=(self.__size - 1, False))");
   ("sequence", "sequence = _validate_sequence(sequence, mc.states)");
   ("sequence", "sequence = _validate_sequence(sequence, possible_states)");
   ("sequence", "sequence = _validate_sequence(sequence, self.__states)");
   ("sequence1", "sequence1 = _validate_sequence(sequence1, self.__states)");
   ("sequence2", "sequence2 = _validate_sequence(sequence2, self.__states)");
   ("sequence_states", "sequence_states = _validate_sequence(sequence_states, possible_states)");
   ("sequence_symbols", "sequence_symbols = _validate_sequence(sequence_symbols, possible_symbols)");
   ("sequences", "sequences = _validate_sequences(sequences, possible_states, False)");
   ("shift_concentration", "shift_concentration = _validate_boolean(shift_concentration)");
   ("sigma", "sigma = _validate_float(sigma, lower_limit=(0.0, True))");
   ("significance", "significance = _validate_float(significance, lower_limit=(0.0, True), upper_limit=(0.2, False))");
   ("size", "size = _validate_integer(size, lower_limit=(2, False))");
   ("size", "size = _validate_integer(size, lower_limit=(3, False))");
   ("state", "state = _validate_label(state, self.__states)");
   ("state1", "state1 = _validate_label(state1, self.__states)");
   ("state2", "state2 = _validate_label(state2, self.__states)");
   ("state_origin", "state_origin = _validate_label(state_origin, self.__states)");
   ("state_target", "state_target = _validate_label(state_target, self.__states)");
   ("states", "states = _create_labels(m.shape[1]) if states is None else _validate_labels_input(states, m.shape[1])");
   ("states", "states = _create_labels(mp.shape[1], 'P') if states is None else _validate_labels_input(states, mp.shape[1])");
   ("states", "states = _create_labels(p.shape[1]) if states is None else _validate_labels_input(states, p.shape[1])");
   ("states", "states = _create_labels(p.shape[1], 'P') if states is None else _validate_labels_input(states, p.shape[1])");
   ("states", "states = _create_labels(size) if states is None else _validate_labels_input(states, size)");
   ("states", "states = _validate_labels_current(states, self.__states, True)");
   ("states", "states = _validate_labels_input(states, (2 * n) + 1)");
   ("states", "states = _validate_labels_input(states, n + 1)");
   ("states", "states = _validate_labels_input(states, n)");
   ("states", "states = _validate_labels_input(states, size)");
   ("states", "states = _validate_labels_input(states, {p.shape[0], q.shape[0]}.pop())");
   ("states", "states = list(range(self.__size[0])) if states is None else _validate_labels_current(states, self.__states, True, 2)");
   ("states1", "states1 = _validate_labels_current(states1, self.__states, True)");
   ("states2", "states2 = _validate_labels_current(states2, self.__states, True)");
   ("steps", "steps = _validate_integer(steps, lower_limit=(0, True))");
   ("steps", "steps = _validate_integer(steps, lower_limit=(1, False))");
   ("steps", "steps = _validate_integer(steps, lower_limit=(2, False))");
   ("symbol", "symbol = _validate_label(symbol, self.__symbols)");
   ("symbols", "symbols = _create_labels(e.shape[1], 'E') if symbols is None else _validate_labels_input(symbols, e.shape[1])");
   ("symbols", "symbols = _create_labels(me.shape[1], 'E') if symbols is None else _validate_labels_input(symbols, me.shape[1])");
   ("symbols", "symbols = _validate_labels_input(symbols, k)");
   ("symbols", "symbols = _validate_sequence(symbols, self.__symbols)");
   ("symbols", "symbols = _validate_sequences(symbols, possible_symbols, True)");
   ("symbols", "symbols = list(range(self.__size[1])) if symbols is None else _validate_labels_current(symbols, self.__symbols, True, 2)");
   ("target", "target = _validate_enumerator(target, ['both', 'state', 'symbol'])");
   ("targets", "targets = _validate_labels_current(targets, self.__states, False)");
   ("targets", "targets = _validate_labels_current(targets, self.__states, True)");
   ("time_points", "time_points = _validate_time_points(time_points)");
   ("u", "u = _validate_float(u, lower_limit=(0.0, False), upper_limit=(1.0, False))");
   ("underlying_matrices", "underlying_matrices = _validate_enumerator(underlying_matrices, ['emission', 'transition'])");
   ("use_scaling", "use_scaling = _validate_boolean(use_scaling)");
   ("v", "v = _validate_float(v, lower_limit=(0.0, False), upper_limit=(1.0, False))");
   ("w", "w = _validate_float(w, lower_limit=(0.0, True), upper_limit=(1.0, True))");
   ("weighted", "weighted = _validate_boolean(weighted)");
   ("zeros", "zeros = _validate_integer(zeros, lower_limit=(0, False))")].
