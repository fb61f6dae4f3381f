{
 "claims": [
  {
   "property": "C01",
   "status": "partial",
   "theorems": [
    "C01_constructor_partial",
    "C01_complex_refuted"
   ],
   "note": "Accept set proved with the real parts of the entries; refuted as stated because complex matrices are accepted and their imaginary parts dropped (astype(float))."
  },
  {
   "property": "C02",
   "status": "partial",
   "theorems": [
    "C02_caller_partial",
    "C02_caller_refuted"
   ],
   "note": "Proved for callers whose function name is not one of the class's own generator methods; refuted otherwise: any function named e.g. 'random' bypasses validation."
  },
  {
   "property": "C03",
   "status": "partial",
   "theorems": [
    "C03_hash_partial",
    "C03_hmm_hash_partial",
    "C03_hash_refuted"
   ],
   "note": "Proved for matrices without negative zeros, for chains and hidden Markov models; refuted otherwise: 0.0 and -0.0 compare equal but have different bytes, so equal chains get different hashes."
  },
  {
   "property": "C04",
   "status": "partial",
   "theorems": [
    "C04_matrix_partial",
    "C04_names_partial",
    "C04_row_refuted",
    "C04_states_refuted",
    "C04_argument_refuted",
    "C04_derived_refuted"
   ],
   "note": "For every history: the matrix is unchanged if the caller never writes to a row returned by conditional_probabilities, and the names if the caller never writes to a list of names passed to the constructor or returned by states. Refuted otherwise: the row is a view of the matrix, the names are shared with the argument, with the result of states and with derived chains."
  },
  {
   "property": "C05",
   "status": "partial",
   "theorems": [
    "C05_cached_once_partial",
    "C05_alias_refuted"
   ],
   "note": "Proved for cached properties read by name. Refuted for reads through an alias, which evaluate the function again each time."
  },
  {
   "property": "C06",
   "status": "proved",
   "theorems": [
    "C06_selection",
    "C06_selection_sorted",
    "C06_single"
   ],
   "note": ""
  },
  {
   "property": "C07",
   "status": "partial",
   "theorems": [
    "C07_minimum_partial",
    "C07_minimum_refuted"
   ],
   "note": "Proved for list-valued selections; refuted for a single index or name, which skips the minimum-length test."
  },
  {
   "property": "C08",
   "status": "proved",
   "theorems": [
    "C08_float",
    "C08_integer"
   ],
   "note": ""
  },
  {
   "property": "C09",
   "status": "proved",
   "theorems": [
    "C09_flexible_scalar",
    "C09_vector",
    "C09_status"
   ],
   "note": ""
  },
  {
   "property": "C10",
   "status": "proved",
   "theorems": [
    "C10_partitions"
   ],
   "note": ""
  },
  {
   "property": "C11",
   "status": "proved",
   "theorems": [
    "C11_from_matrix_stochastic",
    "C11_from_matrix_zero_rows",
    "C11_from_matrix_total"
   ],
   "note": ""
  },
  {
   "property": "C12",
   "status": "partial",
   "theorems": [
    "C12_from_matrix_proportional_partial",
    "C12_tiny_weights_refuted",
    "C12_from_graph_partial",
    "C12_from_graph_refuted"
   ],
   "note": "Proportionality proved for rows whose total exceeds 1e-8, for matrices and graphs; refuted for smaller positive totals, which numpy.isclose treats as zero (the row becomes uniform)."
  },
  {
   "property": "C13",
   "status": "partial",
   "theorems": [
    "C13_birth_death_stochastic",
    "C13_birth_death_support",
    "C13_birth_death_entries_partial",
    "C13_tiny_probabilities_refuted"
   ],
   "note": "Stochastic and tridiagonal for all accepted vectors; exact entries unless a probability lies strictly between 0 and 1e-8, where they are refuted (entries are zeroed by numpy.isclose, then renormalised)."
  },
  {
   "property": "C14",
   "status": "proved",
   "theorems": [
    "C14_gamblers_ruin",
    "C14_gamblers_ruin_total"
   ],
   "note": ""
  },
  {
   "property": "C15",
   "status": "proved",
   "theorems": [
    "C15_urn_model",
    "C15_urn_model_total"
   ],
   "note": ""
  },
  {
   "property": "C16",
   "status": "partial",
   "theorems": [
    "C16_moran_stochastic_partial",
    "C16_moran_total_partial",
    "C16_moran_negative_refuted",
    "C16_moran_arithmetic_error_refuted"
   ],
   "note": "Stochastic for selection strength s <= 1; refuted for s > 1 (negative entries, or a ZeroDivisionError)."
  },
  {
   "property": "C17",
   "status": "proved",
   "theorems": [
    "C17_rouwenhorst",
    "C17_rouwenhorst_total",
    "C17_rouwenhorst_rows",
    "C17_rouwenhorst_autocorrelation"
   ],
   "note": ""
  },
  {
   "property": "C18",
   "status": "proved",
   "theorems": [
    "C18_tauchen",
    "C18_tauchen_cells"
   ],
   "note": ""
  },
  {
   "property": "C19",
   "status": "partial",
   "theorems": [
    "C19_adda_cooper_refuted",
    "C19_adda_cooper_partial",
    "C19_tauchen_total_partial",
    "C19_tauchen_refuted"
   ],
   "note": "Tauchen: proved for -1 < rho <= 1; refuted for rho = -1 (ZeroDivisionError). Rouwenhorst total: C17. Tauchen-Hussey: C138. Adda-Cooper accepts rho = 1 and -1 and then divides by zero (C19_adda_cooper_refuted); it succeeds exactly for the other accepted values."
  },
  {
   "property": "C20",
   "status": "partial",
   "theorems": [
    "C20_random_partial",
    "C20_random_zeros",
    "C20_random_stochastic_partial",
    "C20_random_mask",
    "C20_random_total",
    "C20_zero_draws_refuted",
    "C20_nearly_complete_rows_refuted"
   ],
   "note": "Proved for uniform draws in (0,1): mask entries and the exact number of zeros in incomplete rows always, row sums 1 except for rows whose mask entries already sum to within tolerance of 1, which keep that sum. Refuted for draws all equal to 0.0 and for nearly complete mask rows."
  },
  {
   "property": "C21",
   "status": "proved",
   "theorems": [
    "C21_dirichlet_process",
    "C21_stick_breaking"
   ],
   "note": ""
  },
  {
   "property": "C22",
   "status": "proved",
   "theorems": [
    "C22_merge_with",
    "C22_merge_with_total"
   ],
   "note": ""
  },
  {
   "property": "C23",
   "status": "proved",
   "theorems": [
    "C23_to_lazy_chain",
    "C23_to_lazy_chain_total",
    "C23_lazy_stationary"
   ],
   "note": ""
  },
  {
   "property": "C24",
   "status": "proved",
   "theorems": [
    "C24_to_bounded_chain"
   ],
   "note": ""
  },
  {
   "property": "C25",
   "status": "proved",
   "theorems": [
    "C25_to_nth_order"
   ],
   "note": ""
  },
  {
   "property": "C26",
   "status": "proved",
   "theorems": [
    "C26_to_subchain",
    "C26_to_subchain_total"
   ],
   "note": ""
  },
  {
   "property": "C27",
   "status": "proved",
   "theorems": [
    "C27_canonical_form",
    "C27_is_canonical"
   ],
   "note": ""
  },
  {
   "property": "C28",
   "status": "proved",
   "theorems": [
    "C28_lump_iff",
    "C28_lump_result"
   ],
   "note": ""
  },
  {
   "property": "C29",
   "status": "partial",
   "theorems": [
    "C29_contiguous_partitions_partial",
    "C29_missing_partition_refuted"
   ],
   "note": "The list contains exactly the lumpable partitions into runs of consecutive states, each once; refuted in general: partitions with non-consecutive blocks are never tried. In floating point the code compares sums exactly, so a lumpable partition may be missed because of rounding (conformance/README.md)."
  },
  {
   "property": "C30",
   "status": "partial",
   "theorems": [
    "C30_is_accessible_17_states_partial",
    "C30_matrix_17_states_partial",
    "C30_are_communicating_17_states_partial",
    "C30_is_accessible_sparse_partial",
    "C30_overflow_refuted"
   ],
   "note": "Proved for at most 17 states, and for sparse chains while (d+1)^(n-1) < 2^63 with d the largest out-degree; refuted for the uniform chain on 18 states, where the int64 matrix power wraps around."
  },
  {
   "property": "C31",
   "status": "proved",
   "theorems": [
    "C31_communicating_classes",
    "C31_independent_of_enumeration",
    "C31_communication_matrix"
   ],
   "note": ""
  },
  {
   "property": "C32",
   "status": "proved",
   "theorems": [
    "C32_recurrent_transient",
    "C32_exactly_one",
    "C32_some_recurrent",
    "C32_recurrent_states",
    "C32_transient_states"
   ],
   "note": ""
  },
  {
   "property": "C33",
   "status": "partial",
   "theorems": [
    "C33_absorbing_recurrent_partial",
    "C33_absorbing_not_transient_partial",
    "C33_singleton_recurrent_is_absorbing",
    "C33_absorbing_and_transient_refuted"
   ],
   "note": "Proved when no diagonal entry lies strictly between 1 - 2e-5 and 1; refuted otherwise (absorbing states are found with numpy.isclose). The converse direction holds always."
  },
  {
   "property": "C34",
   "status": "proved",
   "theorems": [
    "C34_is_absorbing",
    "C34_is_absorbing_exact"
   ],
   "note": "Proved relative to the reported absorbing states, and in terms of p_ii = 1 when no diagonal entry lies strictly between 1 - 2e-5 and 1."
  },
  {
   "property": "C35",
   "status": "proved",
   "theorems": [
    "C35_is_irreducible"
   ],
   "note": ""
  },
  {
   "property": "C36",
   "status": "proved",
   "theorems": [
    "C36_period_irreducible"
   ],
   "note": ""
  },
  {
   "property": "C37",
   "status": "partial",
   "theorems": [
    "C37_periods_sorted_names_partial",
    "C37_periods_by_name_partial",
    "C37_periods_order_refuted"
   ],
   "note": "Proved when the state names are in increasing string order, and in general with the order by names; refuted for default names of 11 states, because periods are ordered by name and classes by position ('10' < '2')."
  },
  {
   "property": "C38",
   "status": "proved",
   "theorems": [
    "C38_cyclic_classes"
   ],
   "note": ""
  },
  {
   "property": "C39",
   "status": "proved",
   "theorems": [
    "C39_is_regular"
   ],
   "note": ""
  },
  {
   "property": "C40",
   "status": "proved",
   "theorems": [
    "C40_stochastically_monotone"
   ],
   "note": ""
  },
  {
   "property": "C41",
   "status": "proved",
   "theorems": [
    "C41_stationary_distributions"
   ],
   "note": ""
  },
  {
   "property": "C42",
   "status": "proved",
   "theorems": [
    "C42_unique_stationary",
    "C42_mixtures"
   ],
   "note": ""
  },
  {
   "property": "C43",
   "status": "proved",
   "theorems": [
    "C43_redistribute"
   ],
   "note": ""
  },
  {
   "property": "C44",
   "status": "proved",
   "theorems": [
    "C44_expected_rewards",
    "C44_expected_rewards_powers"
   ],
   "note": ""
  },
  {
   "property": "C45",
   "status": "partial",
   "theorems": [
    "C45_expected_transitions_small_partial",
    "C45_expected_transitions_large_partial",
    "C45_expected_moves_total",
    "C45_returned_total_partial",
    "C45_three_steps_refuted",
    "C45_complex_eigenvalues_refuted"
   ],
   "note": "Proved for 1 or 2 steps, and for more steps than states given an exact real diagonalisation (the eigendecomposition is an argument of the model). Refuted for 3 <= steps <= size, where two names alias one array and the total is 2^(steps-1), and for chains with complex eigenvalues, because only real parts are kept."
  },
  {
   "property": "C46",
   "status": "proved",
   "theorems": [
    "C46_first_passage_probabilities"
   ],
   "note": ""
  },
  {
   "property": "C47",
   "status": "partial",
   "theorems": [
    "C47_first_passage_one_state_partial",
    "C47_first_passage_set_partial",
    "C47_first_passage_set_refuted"
   ],
   "note": "Proved for a single first passage state; for a set the returned value is proved to be the sum of the per-state values, which is refuted as a first entry probability (the values can sum to 2)."
  },
  {
   "property": "C48",
   "status": "proved",
   "theorems": [
    "C48_first_passage_reward"
   ],
   "note": "For every chain of size other than 2 and every admissible call; the method raises for size 2."
  },
  {
   "property": "C49",
   "status": "partial",
   "theorems": [
    "C49_absorption_limits_partial",
    "C49_absorption_partial",
    "C49_nearly_absorbing_refuted",
    "C49_fundamental"
   ],
   "note": "Proved when no diagonal entry lies strictly between 1 - 2e-5 and 1; refuted otherwise (a transient state within the tolerance counts as absorbing, giving a 'probability' of 199999). The results are also proved to be the limits of the expected visits, of the k-step probabilities and of the truncated absorption times over paths. The fundamental matrix and the mean absorption times hold without the tolerance condition."
  },
  {
   "property": "C50",
   "status": "partial",
   "theorems": [
    "C50_committor_limits_partial",
    "C50_committor_partial",
    "C50_small_committor_refuted"
   ],
   "note": "The returned vector is the unique exact committor with values up to 1e-8 replaced by 0; the replacement refutes the mean value property for such entries."
  },
  {
   "property": "C51",
   "status": "proved",
   "theorems": [
    "C51_passage_times_limit",
    "C51_all_pairs_limit",
    "C51_passage_times_to_targets",
    "C51_passage_times_all_pairs"
   ],
   "note": ""
  },
  {
   "property": "C52",
   "status": "partial",
   "theorems": [
    "C52_mixing_time_exists_refuted",
    "C52_mixing_time_partial",
    "C52_not_ergodic",
    "C52_jump_refuted"
   ],
   "note": "Proved in the exact form the loop computes: least number of single steps (at most 99) within the cutoff in the L1 norm, times jump. Equals the property for jump = 1 and at most 99 steps; refuted for jump = 2. The cutoff is any rational (0.25 or a rational value for 1/(2e)). Also refuted: None is returned for a slowly mixing ergodic chain although a mixing time exists (the loop stops after 100 steps)."
  },
  {
   "property": "C53",
   "status": "proved",
   "theorems": [
    "C53_time_correlations",
    "C53_time_relaxations",
    "C53_not_unique_none"
   ],
   "note": "The eigendecomposition, which the code computes even when it is not used, is an argument assumed to succeed. Hypothesis: a single stationary distribution (otherwise the methods return None)."
  },
  {
   "property": "C54",
   "status": "proved",
   "theorems": [
    "C54_steps",
    "C54_simulate",
    "C54_next"
   ],
   "note": ""
  },
  {
   "property": "C55",
   "status": "partial",
   "theorems": [
    "C55_predict_greedy_partial",
    "C55_predict_one_step_partial",
    "C55_predict_level_partial",
    "C55_predict_refuted"
   ],
   "note": "The prediction is proved to be the greedy walk (each step the unique most probable successor, None on ties), and optimal for one step and for chains whose rows share their maximum; refuted in general: a greedy walk need not be a most probable walk."
  },
  {
   "property": "C56",
   "status": "proved",
   "theorems": [
    "C56_transition_probability",
    "C56_sequence_probability"
   ],
   "note": ""
  },
  {
   "property": "C57",
   "status": "proved",
   "theorems": [
    "C57_decode",
    "C57_decode_none",
    "C57_decode_arrays",
    "C57_default_start"
   ],
   "note": "Likelihood, posteriors, forward and backward arrays for every model; the call returns None exactly when some symbol has conditional probability below 1e-300 given the preceding ones. Real logarithm of the standard library."
  },
  {
   "property": "C58",
   "status": "partial",
   "theorems": [
    "C58_viterbi_score_partial",
    "C58_viterbi_known_start_partial",
    "C58_viterbi_path_refuted",
    "C58_viterbi_none_refuted",
    "C58_viterbi_probability_refuted"
   ],
   "note": "Proved: the returned path maximises the joint probability multiplied once more by the first symbol's emission probability, and is a best path when the initial state is known. Refuted in general: the path may not be the best one, None may be returned for possible symbols, and the returned probability is not that of the path (the first symbol's emission is counted twice). Rounding to 12 decimals is not modelled."
  },
  {
   "property": "C59",
   "status": "partial",
   "theorems": [
    "C59_simulate_partial",
    "C59_simulate_all_draws_partial",
    "C59_simulate_refuted"
   ],
   "note": "Proved for draws strictly between 0 and 1 (and for all draws in [0,1) up to draws exactly 0); refuted for a draw equal to 0, which selects position 0 whatever its probability."
  },
  {
   "property": "C60",
   "status": "partial",
   "theorems": [
    "C60_restrict_partial",
    "C60_restrict_refuted",
    "C60_restrict_one_state_refuted"
   ],
   "note": "Proved when states are selected or fewer symbols than states are kept; refuted otherwise: the code compares the number of selected symbols with the number of states. A single state label is accepted and yields a one-state model, refuting the two-state minimum."
  },
  {
   "property": "C61",
   "status": "proved",
   "theorems": [
    "C61_estimate",
    "C61_estimate_accepts"
   ],
   "note": ""
  },
  {
   "property": "C62",
   "status": "proved",
   "theorems": [
    "C62_fit_mle",
    "C62_fit_map",
    "C62_fit_accepts"
   ],
   "note": "Besides the closed forms: the unsmoothed fit maximises the probability of the observed sequence over all stochastic matrices, and the MAP fit maximises the Dirichlet posterior density (integer hyperparameters, as the validator demands)."
  },
  {
   "property": "C63",
   "status": "partial",
   "theorems": [
    "C63_fit_function_partial",
    "C63_fit_function_accepts",
    "C63_nodes_partial",
    "C63_weights_newton",
    "C63_weights_trapezoid",
    "C63_weights_simpson",
    "C63_negative_refuted",
    "C63_newton_nodes_refuted",
    "C63_newton_outside_refuted"
   ],
   "note": "Stochastic for non-negative functions; nodes in the interval for all rules except Newton-Cotes on an interval not starting at 0. Refuted for functions taking negative values (accepted without error) and for Newton-Cotes (the nodes omit the left end of the interval). Gauss-Chebyshev, Gauss-Legendre and Niederreiter nodes and weights are arguments here; see C169."
  },
  {
   "property": "C64",
   "status": "proved",
   "theorems": [
    "C64_dictionary_round_trip"
   ],
   "note": ""
  },
  {
   "property": "C65",
   "status": "partial",
   "theorems": [
    "C65_csv_round_trip_partial",
    "C65_csv_long_name_refuted",
    "C65_csv_nul_refuted"
   ],
   "note": "Character level, for all names including commas, quotes and line breaks, as long as no field exceeds csv.field_size_limit() (131072 by default) and, before Python 3.11, no name contains NUL; refuted beyond (reading raises). Hypothesis on numbers: float(repr(x)) = x and repr(x) is a decimal literal."
  },
  {
   "property": "C66",
   "status": "partial",
   "theorems": [
    "C66_txt_round_trip_partial",
    "C66_txt_renames_refuted",
    "C66_txt_fails_refuted",
    "C66_dos_line_ends",
    "C66_last_record_counts"
   ],
   "note": "Proved for names without white space; refuted otherwise: a name with a blank inside makes the file unreadable, a name with a trailing blank is silently renamed."
  },
  {
   "property": "C67",
   "status": "partial",
   "theorems": [
    "C67_json_round_trip",
    "C67_xml_round_trip_partial",
    "C67_xml_renames_refuted",
    "C67_xml_control_refuted",
    "C67_json_dos_line_ends"
   ],
   "note": "JSON proved for all names. XML proved for names without leading or trailing white space and with XML characters only; refuted otherwise (names are stripped; control characters make the file unreadable). Characters are bytes/code points up to 255."
  },
  {
   "property": "C68",
   "status": "proved",
   "theorems": [
    "C68_graph_round_trip",
    "C68_graph_round_trip_any"
   ],
   "note": "Exact for stochastic rows; in general the rows come back divided by their sums."
  },
  {
   "property": "C69",
   "status": "proved",
   "theorems": [
    "C69_default_names",
    "C69_hmm_default_names",
    "C69_used"
   ],
   "note": ""
  },
  {
   "property": "C70",
   "status": "partial",
   "theorems": [
    "C70_moran_up",
    "C70_moran_down_partial",
    "C70_moran_down_refuted"
   ],
   "note": "Upward probabilities proved for all parameters with s <= 1; downward ones for u = v; refuted for u <> v (the code multiplies by v where u is needed)."
  },
  {
   "property": "C71",
   "status": "partial",
   "theorems": [
    "C71_lump_names_partial",
    "C71_lump_names_refuted"
   ],
   "note": "Proved when no state name contains a comma; refuted otherwise (block names are joined by commas)."
  },
  {
   "property": "C72",
   "status": "partial",
   "theorems": [
    "C72_birth_death_size_partial",
    "C72_birth_death_one_state_refuted"
   ],
   "note": "Refuted: vectors of length one are accepted; proved for vectors of length at least two."
  },
  {
   "property": "C73",
   "status": "proved",
   "theorems": [
    "C73_identity",
    "C73_identity_arguments"
   ],
   "note": ""
  },
  {
   "property": "C74",
   "status": "proved",
   "theorems": [
    "C74_wright_fisher_stochastic",
    "C74_wright_fisher_entries",
    "C74_wright_fisher_total"
   ],
   "note": ""
  },
  {
   "property": "C75",
   "status": "proved",
   "theorems": [
    "C75_random_distribution"
   ],
   "note": ""
  },
  {
   "property": "C76",
   "status": "partial",
   "theorems": [
    "C76_period_lcm_partial",
    "C76_period_reducible_refuted"
   ],
   "note": "Proved when the names are in increasing order and networkx.is_aperiodic answers False; refuted for the documented meaning of networkx.is_aperiodic on a graph that is not strongly connected (a self-loop on a transient state hides the period)."
  },
  {
   "property": "C77",
   "status": "partial",
   "theorems": [
    "C77_mean_recurrence_limit_partial",
    "C77_mean_recurrence_times_partial",
    "C77_small_probability_refuted"
   ],
   "note": "Proved for states of stationary probability above 1e-8; refuted below (the method returns 0)."
  },
  {
   "property": "C78",
   "status": "proved",
   "theorems": [
    "C78_passage_time_between_limit",
    "C78_passage_time_between"
   ],
   "note": ""
  },
  {
   "property": "C79",
   "status": "proved",
   "theorems": [
    "C79_ergodic_iff_regular",
    "C79_is_ergodic",
    "C79_not_ergodic_none"
   ],
   "note": ""
  },
  {
   "property": "C80",
   "status": "partial",
   "theorems": [
    "C80_long_time_correlations_partial",
    "C80_long_time_relaxations_partial",
    "C80_complex_eigenvalues_refuted"
   ],
   "note": "Proved given an exact real diagonalisation; refuted for complex eigenvalues (only real parts are kept)."
  },
  {
   "property": "C81",
   "status": "proved",
   "theorems": [
    "C81_simulate_iff_slots",
    "C81_every_walk_possible"
   ],
   "note": ""
  },
  {
   "property": "C82",
   "status": "proved",
   "theorems": [
    "C82_predict_map"
   ],
   "note": ""
  },
  {
   "property": "C83",
   "status": "partial",
   "theorems": [
    "C83_fit_partial",
    "C83_fit_columns_refuted"
   ],
   "note": "Stochasticity and state dimension proved for every fitting type; the emission matrix has the columns of the guess, which are refuted to agree with the number of symbols. The convergence test is an arbitrary function of the iteration."
  },
  {
   "property": "C84",
   "status": "partial",
   "theorems": [
    "C84_smoothing_partial",
    "C84_smoothing_default_refuted",
    "C84_smoothing_laplace_refuted"
   ],
   "note": "Refuted twice: smoothing is off by default, and it adds 0.001 rather than 1. Proved: what smoothing does when requested."
  },
  {
   "property": "C85",
   "status": "proved",
   "theorems": [
    "C85_hmm_constructor"
   ],
   "note": ""
  },
  {
   "property": "C86",
   "status": "proved",
   "theorems": [
    "C86_from_matrix",
    "C86_from_matrix_lists"
   ],
   "note": ""
  },
  {
   "property": "C87",
   "status": "proved",
   "theorems": [
    "C87_sequence",
    "C87_sequences"
   ],
   "note": ""
  },
  {
   "property": "C88",
   "status": "partial",
   "theorems": [
    "C88_sequences_unchanged_partial",
    "C88_flat_unchanged_partial",
    "C88_sequences_refuted"
   ],
   "note": "Proved for sequences of indices and for a flat sequence; refuted for sequences of names, which are overwritten in place by indices."
  },
  {
   "property": "C89",
   "status": "partial",
   "theorems": [
    "C89_boundary_partial",
    "C89_boundary_refuted"
   ],
   "note": "Accept set proved: [0,1] and NaN; NaN refutes the property."
  },
  {
   "property": "C90",
   "status": "partial",
   "theorems": [
    "C90_blocks_refuted"
   ],
   "note": "Refuted: a partition with an empty block is accepted (the exact accept set is C10)."
  },
  {
   "property": "C91",
   "status": "proved",
   "theorems": [
    "C91_enumerator",
    "C91_hyperparameter",
    "C91_mask",
    "C91_rewards",
    "C91_interval",
    "C91_time_points"
   ],
   "note": ""
  },
  {
   "property": "C92",
   "status": "proved",
   "theorems": [
    "C92_no_deadlock",
    "C92_termination"
   ],
   "note": "The table of which cached property reads which is read off the source text; any instance reads a subset of it."
  },
  {
   "property": "C93",
   "status": "partial",
   "theorems": [
    "C93_cached_value_partial",
    "C93_cached_value_refuted"
   ],
   "note": "Proved for histories that never write to a cached result; refuted otherwise (cached arrays are returned by reference)."
  },
  {
   "property": "C94",
   "status": "proved",
   "theorems": [
    "C94_from_dictionary_iff"
   ],
   "note": ""
  },
  {
   "property": "C95",
   "status": "proved",
   "theorems": [
    "C95_hmm_dictionary_round_trip",
    "C95_from_dictionary_rows"
   ],
   "note": ""
  },
  {
   "property": "C96",
   "status": "partial",
   "theorems": [
    "C96_hmm_file_round_trip_partial",
    "C96_hmm_csv_renames_refuted",
    "C96_from_file_rows"
   ],
   "note": "Proved for names that fit the format; refuted for trailing white space in CSV files (silently renamed); C65-C67 show the other failures."
  },
  {
   "property": "C97",
   "status": "proved",
   "theorems": [
    "C97_hmm_graph_round_trip"
   ],
   "note": ""
  },
  {
   "property": "C98",
   "status": "proved",
   "theorems": [
    "C98_from_graph_iff"
   ],
   "note": "For graphs without parallel edges (a MultiDiGraph is first converted by networkx)."
  },
  {
   "property": "C99",
   "status": "partial",
   "theorems": [
    "C99_from_graph_stochastic_partial",
    "C99_from_graph_infinite_refuted"
   ],
   "note": "Proved for finite weights; refuted for an infinite weight (accepted, yields NaN)."
  },
  {
   "property": "C100",
   "status": "partial",
   "theorems": [
    "C100_from_file_partial",
    "C100_negative_refuted",
    "C100_blank_refuted",
    "C100_json_names"
   ],
   "note": "Proved: at least two distinct names, finite entries, rows summing to 1 within the tolerance. Refuted: entries outside [0,1] and blank names are accepted (from_file does not validate what it read)."
  },
  {
   "property": "C101",
   "status": "partial",
   "theorems": [
    "C101_constructor_partial",
    "C101_overlap_refuted"
   ],
   "note": "Proved for the constructor called by the user; refuted for from_dictionary (and files), which accept common names."
  },
  {
   "property": "C102",
   "status": "proved",
   "theorems": [
    "C102_hitting_probabilities",
    "C102_hitting_probabilities_any_solver"
   ],
   "note": "Proved for a solver that returns basic solutions (which the active set method of scipy's nnls does), and for any correct solver when every state reaches the targets. A solver that meets the assumption is constructed."
  },
  {
   "property": "C103",
   "status": "proved",
   "theorems": [
    "C103_hitting_times"
   ],
   "note": "Proved for a solver that returns basic solutions, as in C102."
  },
  {
   "property": "C104",
   "status": "partial",
   "theorems": [
    "C104_mean_number_visits_partial",
    "C104_finite_reported_infinite_refuted",
    "C104_infinite_reported_zero_refuted"
   ],
   "note": "Exact form of every entry proved; equal to the claimed value when the entering probability is 0 or above 1e-8 and the return probability is 1 or at most 1 - 2e-5. Refuted outside: a transient state with return probability 1 - 1e-6 is reported as visited infinitely often, and an absorbing state entered with probability 1e-9 as never visited."
  },
  {
   "property": "C105",
   "status": "proved",
   "theorems": [
    "C105_redistribute_converges",
    "C105_transition_probabilities_converge",
    "C105_time_average"
   ],
   "note": "Convergence of redistribute to the only stationary distribution and of the expected share of visits."
  },
  {
   "property": "C106",
   "status": "proved",
   "theorems": [
    "C106_sensitivity",
    "C106_not_irreducible_none"
   ],
   "note": "The least squares solver is an argument that returns some solution of minimal residual (lstsq_ok). Besides the derivative an exact formula for finite changes is proved."
  },
  {
   "property": "C107",
   "status": "partial",
   "theorems": [
    "C107_is_reversible_partial",
    "C107_several_classes",
    "C107_loops",
    "C107_tolerance_refuted"
   ],
   "note": "The comparison has numpy's tolerances, so a chain whose probability flows differ by little is reported reversible (C107_tolerance_refuted). Proved: the exact characterisation of the answer by the flows, True for every time reversible chain, the equivalence when no two different flows are within the tolerance, False for several recurrent classes, and Kolmogorov's criterion for the specification."
  },
  {
   "property": "C108",
   "status": "partial",
   "theorems": [
    "C108_symmetric_partial",
    "C108_doubly_partial",
    "C108_symmetric_refuted",
    "C108_doubly_refuted"
   ],
   "note": "Both comparisons have numpy's tolerances: a matrix that is not symmetric is reported symmetric (and then not doubly stochastic), and doubly stochastic is reported although the uniform distribution is not stationary. Proved: the answers are True whenever the exact property holds, the error bound of the True answers, the uniform pi of irreducible doubly stochastic chains, reversibility of irreducible symmetric chains."
  },
  {
   "property": "C109",
   "status": "proved",
   "theorems": [
    "C109_density",
    "C109_range"
   ],
   "note": ""
  },
  {
   "property": "C110",
   "status": "proved",
   "theorems": [
    "C110_kemeny"
   ],
   "note": "Proved for every chain, with the exact reading of 'absorbing' (the fundamental matrix uses the exact transient states); None exactly when the chain is not absorbing or has no transient state."
  },
  {
   "property": "C111",
   "status": "partial",
   "theorems": [
    "C111_columns_partial",
    "C111_any_matrix_partial",
    "C111_incidence_refuted"
   ],
   "note": "incidence_matrix does not use the transition matrix: every pair of different states has a non-zero column (C111_incidence_refuted, C111_any_matrix_partial)."
  },
  {
   "property": "C112",
   "status": "partial",
   "theorems": [
    "C112_entropy_rate_partial",
    "C112_several_none",
    "C112_normalized_partial",
    "C112_negative_refuted",
    "C112_normalized_eigenvalues"
   ],
   "note": "The sign is not changed when the sum is within 1e-8 of zero, so the rate of a nearly deterministic chain is reported as a negative number (C112_negative_refuted). Proved: the exact value otherwise, its bounds and when it is zero, None for several recurrent classes; the normalized rate, for every chain with one recurrent class, from the eigenvalues of the adjacency matrix (an argument that is assumed to list them)."
  },
  {
   "property": "C113",
   "status": "proved",
   "theorems": [
    "C113_counts",
    "C113_iterations",
    "C113_default_start",
    "C113_single_sequence"
   ],
   "note": "Over exact arithmetic; the convergence test is an argument of the model (any sequence of answers)."
  },
  {
   "property": "C114",
   "status": "partial",
   "theorems": [
    "C114_single_sequence_partial",
    "C114_several_sequences_refuted"
   ],
   "note": "With one sequence the result is the relative frequencies along the path predicted with the parameters of the last iteration (both types). Refuted for several sequences: the per-sequence frequencies are normalised before they are added, so a short sequence weighs as much as a long one."
  },
  {
   "property": "C115",
   "status": "partial",
   "theorems": [
    "C115_last_edge_partial",
    "C115_hmm_last_edge_partial",
    "C115_parallel_edges_refuted"
   ],
   "note": "Only the last of several parallel edges is used: from_graph of a multigraph equals from_graph of the simple graph that keeps the last edge of each pair; refuted as stated."
  },
  {
   "property": "C116",
   "status": "partial",
   "theorems": [
    "C116_compatibility_partial",
    "C116_infinite_refuted"
   ],
   "note": "The chi-square distribution function is an argument of the model. Holds for sequences that end in the state they began with. The code divides by the column sums of the observed transitions (arrivals) where the likelihood ratio needs the row sums (departures): for every other sequence the reported statistic is strictly larger than the likelihood ratio, or infinite. Refuted with a sequence of probability 1/2 and statistic infinity."
  },
  {
   "property": "C117",
   "status": "partial",
   "theorems": [
    "C117_homogeneity_partial",
    "C117_homogeneity_refuted"
   ],
   "note": "The chi-square distribution function is an argument of the model. The statistic is the likelihood ratio for equal proportions of pairs of consecutive states, not of transitions from each state: two sequences with identical transition frequencies make it exceed any bound (refuted). No conclusion exactly when no two sequences share a state."
  },
  {
   "property": "C118",
   "status": "proved",
   "theorems": [
    "C118_first_order"
   ],
   "note": "The chi-square distribution function is an argument of the model. With two states the continuity correction can make the statistic zero for dependent tables, hence the condition of three states for that equivalence."
  },
  {
   "property": "C119",
   "status": "partial",
   "theorems": [
    "C119_markov_property_partial",
    "C119_constant_refuted",
    "C119_names_refuted"
   ],
   "note": "The chi-square distribution function is an argument of the model. For names of equal length the statistic and the degrees of freedom are as stated. Refuted: constant sequences have zero degrees of freedom and are always rejected; names of unequal length can run together ('1','11') and change the degrees of freedom, which the default names do from 11 states on."
  },
  {
   "property": "C120",
   "status": "partial",
   "theorems": [
    "C120_stationarity_partial",
    "C120_default_refuted",
    "C120_two_blocks_refuted"
   ],
   "note": "The chi-square distribution function is an argument of the model. Proved for two blocks or more. Refuted: with the default of one block every sequence is rejected (zero degrees of freedom gives p-value 0); with two states and two blocks the continuity correction makes the statistic zero for every sequence."
  },
  {
   "property": "C121",
   "status": "proved",
   "theorems": [
    "C121_accepted",
    "C121_levels"
   ],
   "note": "The chi-square distribution function is an argument of the model. "
  },
  {
   "property": "C122",
   "status": "partial",
   "theorems": [
    "C122_accepts_partial",
    "C122_bottom_up_partial",
    "C122_top_down_partial",
    "C122_stationary_masses",
    "C122_adaptive",
    "C122_top_down_refuted",
    "C122_bottom_up_refuted"
   ],
   "note": "The eigenvector signs and the divergence are arguments. Refuted: merging two groups that are not neighbours loses a group, so top-down (and adaptive below 30 states) can return fewer states than requested; bottom-up can too, when a set of states has no moves inside. Proved: what each result is (groups of states with the stationary conditional probabilities, when no group is lost), accepted arguments, choice of method. Missing: that the numerical iteration of top-down always ends with a result."
  },
  {
   "property": "C123",
   "status": "partial",
   "theorems": [
    "C123_model_partial",
    "C123_stochastic_partial",
    "C123_total_partial",
    "C123_masks_partial",
    "C123_zeros_refuted"
   ],
   "note": "Proved for draws in (0,1) (numpy's 0.0 is excluded, see C20). Refuted: unlike MarkovChain.random, free cells of rows the mask already completes are not set aside, so requested zeros can be spent there and the incomplete rows get fewer or none. Rows completed only within tolerance keep their sum."
  },
  {
   "property": "C124",
   "status": "proved",
   "theorems": [
    "C124_law",
    "C124_every_run",
    "C124_simulate",
    "C124_next",
    "C124_next_accepts"
   ],
   "note": "Draws and the integer for a missing initial state are arguments; the seed is not modelled. A draw of exactly 0.0 falls into the first interval even when its probability is zero (see C59)."
  },
  {
   "property": "C125",
   "status": "partial",
   "theorems": [
    "C125_is_ergodic_partial",
    "C125_one_state_refuted"
   ],
   "note": "Proved for models with at least two states and exact row sums. Refuted: a model restricted to a single state raises an error instead of answering."
  },
  {
   "property": "C126",
   "status": "proved",
   "theorems": [
    "C126_points_are_reversible",
    "C126_all_reversible_are_points"
   ],
   "note": "The constraints are read as exact equations and inequalities."
  },
  {
   "property": "C127",
   "status": "partial",
   "theorems": [
    "C127_objective_partial",
    "C127_closest_partial",
    "C127_attained_partial",
    "C127_unique",
    "C127_doubly_stochastic"
   ],
   "note": "The optimiser (SLSQP) is an argument assumed to return exact solutions; its rounding and its tolerance are not modelled. Minimality is over matrices with rational entries."
  },
  {
   "property": "C128",
   "status": "partial",
   "theorems": [
    "C128_already_reversible",
    "C128_not_reversible_partial",
    "C128_result_partial",
    "C128_null_weight",
    "C128_bad_distribution",
    "C128_refused_refuted",
    "C128_nearest_refuted"
   ],
   "note": "Proved for an exact optimiser. Refuted: a chain with several recurrent classes is never reported as reversible, so the method raises ValueError even for a symmetric chain such as the identity; and without a distribution only chains with the uniform stationary distribution compete, so a closer reversible chain can exist."
  },
  {
   "property": "C129",
   "status": "partial",
   "theorems": [
    "C129_rates_partial",
    "C129_never_understated_partial",
    "C129_not_ergodic",
    "C129_slow_refuted",
    "C129_raises_refuted"
   ],
   "note": "numpy's eigenvalues are an argument that is assumed to list the exact eigenvalues with their multiplicities. Refuted: slem discards every eigenvalue within 1.001e-5 of 1, so for a slowly mixing ergodic chain the three properties raise IndexError (no eigenvalue left) or report the gap of a later eigenvalue (witness: 1e5 times too large). Proved: the exact values when the rate lies between 1e-8 and 1 - 1.001e-5, None below, and that a reported gap is never too small."
  },
  {
   "property": "C130",
   "status": "proved",
   "theorems": [
    "C130_timescales"
   ],
   "note": "numpy's eigenvalues are an argument that is assumed to list the exact eigenvalues with their multiplicities."
  },
  {
   "property": "C131",
   "status": "proved",
   "theorems": [
    "C131_topological_entropy"
   ],
   "note": "numpy's eigenvalues are an argument that is assumed to list the exact eigenvalues of the adjacency matrix with their multiplicities."
  },
  {
   "property": "C132",
   "status": "proved",
   "theorems": [
    "C132_stationary",
    "C132_variance"
   ],
   "note": ""
  },
  {
   "property": "C133",
   "status": "proved",
   "theorems": [
    "C133_stationary",
    "C133_mean"
   ],
   "note": ""
  },
  {
   "property": "C134",
   "status": "proved",
   "theorems": [
    "C134_moran",
    "C134_wright_fisher"
   ],
   "note": "Proved without mutation (u = v = 0): Moran for every s < 1, Wright-Fisher for s = 0 (with selection no closed formula exists)."
  },
  {
   "property": "C135",
   "status": "proved",
   "theorems": [
    "C135_win",
    "C135_duration",
    "C135_ladder"
   ],
   "note": ""
  },
  {
   "property": "C136",
   "status": "proved",
   "theorems": [
    "C136_stationary"
   ],
   "note": "Probabilities in (0, 1e-8] are excluded, because the generator zeroes cells that numpy regards as close to zero (see C13); all other accepted vectors with positive neighbouring probabilities are covered."
  },
  {
   "property": "C137",
   "status": "partial",
   "theorems": [
    "C137_moran_selection_partial",
    "C137_wright_fisher_selection_partial",
    "C137_boundaries_partial",
    "C137_direction_refuted",
    "C137_mutation_refuted"
   ],
   "note": "Refuted: the code gives the counted type fitness 1-s under 'moran' and 1+s under 'wright-fisher', so the same s favours opposite types; and the two extreme states are made absorbing whatever the mutation rates. What does hold (the sign of the mean change in each model, the absorbing boundaries) is proved for all parameters."
  },
  {
   "property": "C138",
   "status": "proved",
   "theorems": [
    "C138_stochastic",
    "C138_units",
    "C138_mirror"
   ],
   "note": "Real numbers instead of doubles; the convergence of the quadrature is proved for two states and a hypothesis otherwise. The reversal symmetry needs an even size, since the middle node of an odd quadrature is only numerically zero."
  },
  {
   "property": "C139",
   "status": "partial",
   "theorems": [
    "C139_two_states_partial",
    "C139_persistence_refuted"
   ],
   "note": "Refuted: the nodes are scaled by sqrt(2)*sqrt(2 k^2) = 2k where Gauss-Hermite quadrature needs sqrt(2)*k, so for two states the autocorrelation is tanh(2 rho (k/sigma)^2): asked for 0.1 one gets more than 0.19. The exact value for two states is proved for all parameters."
  },
  {
   "property": "C140",
   "status": "partial",
   "theorems": [
    "C140_exact_partial",
    "C140_simulated_partial",
    "C140_hmm_partial",
    "C140_tolerance_refuted"
   ],
   "note": "Refuted: the constructor accepts rows within 1.001e-5 of one, numpy's choice only within 1.5e-8. Proved: simulation succeeds exactly when the rows of the visited states pass numpy's check, in particular for rows summing exactly to one."
  },
  {
   "property": "C141",
   "status": "partial",
   "theorems": [
    "C141_lazy_partial",
    "C141_merge_partial",
    "C141_nth_order_partial",
    "C141_nth_order_refuted"
   ],
   "note": "Refuted for to_nth_order: the deviation grows with the order and the result is not validated. Proved for to_lazy_chain and merge_with, with the exact growth for to_nth_order."
  },
  {
   "property": "C142",
   "status": "partial",
   "theorems": [
    "C142_extension_partial",
    "C142_dots_in_names_refuted",
    "C142_spelling_partial",
    "C142_last_component_partial"
   ],
   "note": "Refuted for names with a further dot: the code joins all suffixes, so model.v2.csv is refused by to_file and from_file. Exact for names with one dot after leading ones. Also proved: repeated slashes and \".\" components do not matter, and the name is the last component."
  },
  {
   "property": "C143",
   "status": "partial",
   "theorems": [
    "C143_saves",
    "C143_saved",
    "C143_refused",
    "C143_crash_partial",
    "C143_not_atomic_refuted",
    "C143_failed_save_refuted"
   ],
   "note": "Refuted: validation opens the file for writing before anything is produced, so a crash, or a name the locale cannot encode, leaves an empty file. Proved for every crash point: other files are untouched and the file holds the old text or a beginning of the new one; refusals leave the disk alone; a finished save reads back. Loss of data still in operating system buffers is outside the model."
  },
  {
   "property": "C144",
   "status": "partial",
   "theorems": [
    "C144_after_crash_partial",
    "C144_cut_file_partial",
    "C144_another_chain_refuted"
   ],
   "note": "Refuted: a CSV file cut inside its last number can be read as another chain without an error. Proved for every cut of every file: JSON and XML cuts are never accepted, and a cut CSV or TXT file that is accepted gives the chain with at most its last entry off by twice the constructor's tolerance."
  },
  {
   "property": "C145",
   "status": "partial",
   "theorems": [
    "C145_saves",
    "C145_saved",
    "C145_refused",
    "C145_crash_partial",
    "C145_after_crash_partial",
    "C145_not_atomic_refuted",
    "C145_another_row_refuted"
   ],
   "note": "Refuted: besides the empty file, a cut TXT file can be read with a different last emission row (0.00001 becomes 1), because missing entries count as zero. Proved for every crash point: nothing else can change, JSON and XML cuts are never accepted, and for CSV only the last entry can be off by twice the tolerance."
  },
  {
   "property": "C146",
   "status": "proved",
   "theorems": [
    "C146_expansion",
    "C146_bounds",
    "C146_nth_order",
    "C146_canonical_form",
    "C146_loses_nothing"
   ],
   "note": "numpy's det is modelled as LU factorisation with partial pivoting in exact arithmetic."
  },
  {
   "property": "C147",
   "status": "proved",
   "theorems": [
    "C147_basis",
    "C147_unique",
    "C147_full",
    "C147_one",
    "C147_nth_order"
   ],
   "note": "matrix_rank counts singular values above a threshold; modelled as the exact rank by elimination."
  },
  {
   "property": "C148",
   "status": "partial",
   "theorems": [
    "C148_square_partial",
    "C148_never_partial",
    "C148_always_loses_partial",
    "C148_more_symbols_refuted",
    "C148_more_states_refuted"
   ],
   "note": "Refuted: the rank is compared with the number of symbols instead of the number of states, so a model with more symbols than states is never regular and one with fewer can be regular although its states cannot be told apart. Proved for equal numbers."
  },
  {
   "property": "C149",
   "status": "proved",
   "theorems": [
    "C149_typed_accepted",
    "C149_accepted_sums"
   ],
   "note": "Binary64 with rounding to nearest (Flocq); every order and grouping of the additions is allowed. Overflow is left out (the entries are at most 1)."
  },
  {
   "property": "C150",
   "status": "proved",
   "theorems": [
    "C150_merge_range",
    "C150_merge_sums",
    "C150_lazy_range",
    "C150_lazy_sums"
   ],
   "note": "Binary64 with rounding to nearest; e is the error of the input rows."
  },
  {
   "property": "C151",
   "status": "partial",
   "theorems": [
    "C151_above_one_refuted",
    "C151_rows_partial"
   ],
   "note": "Refuted: with rows 0.56, 0.34, 0.10 the second power has an entry 1 + 2^-52 when the products are summed from left to right; the result is not validated, but a file or dictionary written from it is refused. Proved for every evaluation order: entries are non-negative and the row error is at most 2k(e + 4(n+1)u)."
  },
  {
   "property": "C152",
   "status": "partial",
   "theorems": [
    "C152_underflow_refuted",
    "C152_sound_partial",
    "C152_exact_partial",
    "C152_right_partial"
   ],
   "note": "Refuted on every machine: a ten-state chain with zero diagonal and off-diagonal 0.111111 (accepted by the constructor) has a positive square, but the power n^n-2n+2 underflows to zero. Proved: a true answer is always right, and the answer is exact while the exponent times the size of the smallest entry's exponent stays within the range of doubles."
  },
  {
   "property": "C153",
   "status": "partial",
   "theorems": [
    "C153_fixture_refuted",
    "C153_star_refuted",
    "C153_nearly_partial"
   ],
   "note": "Refuted on every machine by a chain of the project's own test data, which is lumpable as typed and rejected as stored; and, with left-to-right products, by a star with six leaves whose doubles are lumpable exactly. Proved: an accepted partition has block probabilities equal up to 32nu."
  },
  {
   "property": "C154",
   "status": "proved",
   "theorems": [
    "C154_positive",
    "C154_rows",
    "C154_units"
   ],
   "note": "scipy's norm.cdf, norm.ppf and integrate.quad are assumed exact; L_Normal.v and L_Adda2.v construct functions that meet the assumptions for all accepted parameters (including Gauss's integral). Real arithmetic."
  },
  {
   "property": "C155",
   "status": "proved",
   "theorems": [
    "C155_symmetric",
    "C155_uniform",
    "C155_mirror"
   ],
   "note": "scipy's norm.cdf, norm.ppf and integrate.quad are assumed exact; L_Normal.v and L_Adda2.v construct functions that meet the assumptions for all accepted parameters (including Gauss's integral). Real arithmetic."
  },
  {
   "property": "C156",
   "status": "proved",
   "theorems": [
    "C156_monotone",
    "C156_independent",
    "C156_reflected"
   ],
   "note": "scipy's norm.cdf, norm.ppf and integrate.quad are assumed exact; L_Normal.v and L_Adda2.v construct functions that meet the assumptions for all accepted parameters (including Gauss's integral). Real arithmetic."
  },
  {
   "property": "C157",
   "status": "partial",
   "theorems": [
    "C157_replaced_refuted",
    "C157_same_refuted",
    "C157_method_partial"
   ],
   "note": "Refuted: any rho within 1e-5 + 1e-8 of 1 is replaced by 1 - 1e-8, so that 0.99999 gives the chain of another process, and all such rhos the same one. Proved for every other accepted rho. Real arithmetic; scipy's norm.cdf is an argument."
  },
  {
   "property": "C158",
   "status": "proved",
   "theorems": [
    "C158_accepts",
    "C158_positive",
    "C158_rows",
    "C158_units",
    "C158_mirror",
    "C158_monotone",
    "C158_independent"
   ],
   "note": "scipy's norm.cdf is assumed exact (normal_cdf; L_Normal.v constructs it). Real arithmetic."
  },
  {
   "property": "C159",
   "status": "partial",
   "theorems": [
    "C159_positive_partial",
    "C159_fails_refuted"
   ],
   "note": "Refuted: for a model with zero transition probabilities the simulated symbols can be impossible for the filter that decodes them, as the simulation emits from the state reached and the decoding from the state left (see C83), so that plot_trellis fails on every run. Proved for positive transitions and emissions of at least 1e-300."
  },
  {
   "property": "C160",
   "status": "partial",
   "theorems": [
    "C160_numbers_partial",
    "C160_header_refuted"
   ],
   "note": "Refuted: the forward column headed by a symbol shows the probabilities of the states after the symbol before it, and those after the last symbol are shown nowhere. C160_numbers_partial says what each column shows."
  },
  {
   "property": "C161",
   "status": "partial",
   "theorems": [
    "C161_edges_partial",
    "C161_first_missing_refuted",
    "C161_first_extra_refuted",
    "C161_nodes_partial",
    "C161_marked_partial",
    "C161_marked_refuted"
   ],
   "note": "Refuted in three ways: from an initial state other than the first no edge leaves the first column; from the first state every possible transition does; with standard nodes the backward diagram can mark edges off the path. Proved: later columns, nodes, and the marks of extended nodes, forward diagrams and chains whose transitions are possible both ways."
  },
  {
   "property": "C162",
   "status": "proved",
   "theorems": [
    "C162_flow"
   ],
   "note": ""
  },
  {
   "property": "C163",
   "status": "partial",
   "theorems": [
    "C163_hidden_refuted",
    "C163_shown_partial"
   ],
   "note": "Refuted for every call: up to 19 steps the last column lies outside the visible range, from 20 steps on neighbouring columns overlap and the flows run backwards. Proved: the other columns are visible and disjoint below 19 steps."
  },
  {
   "property": "C164",
   "status": "partial",
   "theorems": [
    "C164_edges_partial",
    "C164_hmm_edges_partial",
    "C164_close_partial",
    "C164_positive_partial",
    "C164_zero_refuted"
   ],
   "note": "Refuted: one zero in the matrix and the labels have a single digit, so that every positive probability below 0.05 is labelled 0.0. Proved: the edges; labels are within half a unit of the last digit; positive labels when no entry is below 1e-4. log10 is taken as exact."
  },
  {
   "property": "C165",
   "status": "partial",
   "theorems": [
    "C165_communicating_partial",
    "C165_nine_partial",
    "C165_shared_refuted",
    "C165_hmm_partial",
    "C165_hmm_refuted",
    "C165_shapes_partial"
   ],
   "note": "Refuted: there are nine colours, so that with ten or more classes (states of a hidden Markov model) colours are shared. Proved: communicating states have the same colour, the converse for at most nine classes, and the shapes."
  },
  {
   "property": "C166",
   "status": "proved",
   "theorems": [
    "C166_chain",
    "C166_hmm"
   ],
   "note": ""
  },
  {
   "property": "C167",
   "status": "proved",
   "theorems": [
    "C167_redistributions"
   ],
   "note": ""
  },
  {
   "property": "C168",
   "status": "proved",
   "theorems": [
    "C168_grid",
    "C168_every_model",
    "C168_names"
   ],
   "note": ""
  },
  {
   "property": "C169",
   "status": "partial",
   "theorems": [
    "C169_chebyshev_partial",
    "C169_niederreiter_partial",
    "C169_legendre_partial",
    "C169_legendre_two_partial",
    "C169_matrix_partial"
   ],
   "note": "Proved in full for gauss-chebyshev and niederreiter over the real numbers. For gauss-legendre positivity and symmetry of the weights are proved whenever Newton's iteration ends with nodes inside the interval, which is proved for two states only; exactness is not."
  },
  {
   "property": "C170",
   "status": "partial",
   "theorems": [
    "C170_accepted_partial",
    "C170_in_order_partial",
    "C170_order_refuted"
   ],
   "note": "Refuted: the validator accepts the four names in any order, but the call is positional, so that a function defined as f(y_index, y_value, x_index, x_value) gets x and y exchanged without notice. Proved: the accepted functions have exactly the four names, and in the documented order each gets its own quantity."
  },
  {
   "property": "C171",
   "status": "proved",
   "theorems": [
    "C171_rate",
    "C171_sign",
    "C171_best_for_groups"
   ],
   "note": "Real logarithms of exact rationals; infinities and nan are replaced as nan_to_num does. For groupings in which every state is in exactly one group."
  },
  {
   "property": "C172",
   "status": "proved",
   "theorems": [
    "C172_states",
    "C172_rejected",
    "C172_moves",
    "C172_emissions"
   ],
   "note": "Exact arithmetic. Every state of an irreducible chain is called cyclic, even if the chain is aperiodic: the theorem says what is answered."
  },
  {
   "property": "C173",
   "status": "partial",
   "theorems": [
    "C173_chain_partial",
    "C173_hmm_partial",
    "C173_period_one_refuted",
    "C173_one_state_refuted"
   ],
   "note": "False as stated: a reducible chain all of whose states have period 2 prints APERIODIC: NO (1) when its names are not in alphabetical order, and str of a model restricted to one state raises. All other lines are proved true for every chain, the period line for irreducible chains; the line REGULAR of a hidden Markov model is the subject of C148."
  },
  {
   "property": "C174",
   "status": "partial",
   "theorems": [
    "C174_points_partial",
    "C174_ring_partial",
    "C174_slow_refuted",
    "C174_no_ring_refuted",
    "C174_hmm_partial",
    "C174_one_state_refuted"
   ],
   "note": "False as stated: a chain with a second eigenvalue within 1.001e-5 of 1 gets a ring that overstates the gap or no ring, and a model restricted to one state raises. Points, unit disc, agreement with spectral_gap, and the ring for all other ergodic chains are proved. numpy.linalg.eigvals is assumed to return the exact eigenvalues."
  },
  {
   "property": "C175",
   "status": "proved",
   "theorems": [
    "C175_accepted",
    "C175_accepted_without_filling",
    "C175_accurate"
   ],
   "note": "Overflow is left out of the arithmetic; a row whose sum is zero and is not filled is excluded by hypothesis."
  },
  {
   "property": "C176",
   "status": "proved",
   "theorems": [
    "C176_fit_accepted",
    "C176_fit_accurate",
    "C176_smoothed_positive",
    "C176_smoothed_accurate",
    "C176_emission_accepted",
    "C176_emission_accurate"
   ],
   "note": "For the transitions of hmm_estimate with handle_nulls the code is that of the maximum likelihood fit. Overflow cannot occur for counts."
  },
  {
   "property": "C177",
   "status": "partial",
   "theorems": [
    "C177_zero_stays",
    "C177_positive_stays_partial",
    "C177_positive_stays_refuted"
   ],
   "note": "False as stated: a weight more than 2^1074 times smaller than the total becomes a zero probability. Zero weights stay zero, and weights of at least 2^-1073 of the total stay positive."
  },
  {
   "property": "C178",
   "status": "partial",
   "theorems": [
    "C178_accepted_partial",
    "C178_accurate_partial",
    "C178_overflow_partial",
    "C178_infinite_refuted"
   ],
   "note": "False as stated: with two infinite draws in a row the row total overflows, the row becomes zero and a ValidationError is raised. Proved: rejection happens exactly when a row total overflows; rows with a total up to 2^1023, or with one infinite draw and a remainder up to 2^969, are accepted, with accurate shares in the first case. The choice and validation of the distribution are not modelled."
  },
  {
   "property": "C179",
   "status": "partial",
   "theorems": [
    "C179_same_partial",
    "C179_fresh_partial",
    "C179_modified_refuted",
    "C179_accepted_partial",
    "C179_rest_partial"
   ],
   "note": "False as stated: an alias of a cached property recomputes the value, so after the returned object was modified in place the alias and the member differ. Proved: the same answer after any reads, freshness of aliases after anything, other members untouched, and exactly which alias lists are accepted. Static methods have no aliases in the package and are not represented."
  },
  {
   "property": "C180",
   "status": "proved",
   "theorems": [
    "C180_typed",
    "C180_typed_law",
    "C180_weights",
    "C180_fitted",
    "C180_law"
   ],
   "note": "numpy's RandomState.choice is modelled in binary64 (check with the compensated sum, cumulative sums, division, search); overflow is left out and the uniform draws are arguments. Chains that are accepted only thanks to the tolerance of the constructor can fail, see C140. The simulation of hidden models is treated exactly in C140."
  },
  {
   "property": "C181",
   "status": "partial",
   "theorems": [
    "C181_statements_partial",
    "C181_assignments_partial",
    "C181_labels_refuted",
    "C181_without_source_refuted"
   ],
   "note": "False as stated: labels quoted in the message that contain the placeholder are replaced too, and without source files (frozen applications) a TypeError is raised instead. Proved: for every validating statement of the package, and every statement of that form, all messages without further at-signs come out with exactly the name of the parameter filled in. The list of statements is copied from the sources."
  },
  {
   "property": "C182",
   "status": "partial",
   "theorems": [
    "C182_instances_partial",
    "C182_chain_exact_partial",
    "C182_others_rejected_partial",
    "C182_model_exact_partial",
    "C182_lists_partial",
    "C182_subclass_refuted",
    "C182_message_refuted"
   ],
   "note": "False as stated: instances of a subclass defined by the user are rejected, and for numbers the message is about a missing attribute and does not name the parameter. Proved: exactly which objects are accepted; instances of the two classes of the package always are, unrelated objects never. Attributes __module__ and __class__ set on single objects and nested classes are not represented."
  },
  {
   "property": "C183",
   "status": "proved",
   "theorems": [
    "C183_typed",
    "C183_weights",
    "C183_results"
   ],
   "note": "numpy's dot and sum may add in any order and use fused operations; overflow is left out."
  },
  {
   "property": "C184",
   "status": "partial",
   "theorems": [
    "C184_accurate_partial",
    "C184_impossible_partial",
    "C184_underflow_refuted"
   ],
   "note": "False as stated: the result underflows to zero for long possible sequences (1100 moves of probability one half). Proved: the absolute accuracy, and zero for impossible sequences. numpy.log and numpy.exp are arguments assumed accurate to two units in the last place (the correctly rounded functions are shown to qualify)."
  },
  {
   "property": "C185",
   "status": "partial",
   "theorems": [
    "C185_possible_partial",
    "C185_law_partial",
    "C185_zero_draw_refuted"
   ],
   "note": "False as stated: the comparison is strict, so a draw equal to 0.0 (which rng.random can return) selects the first state even if it is forbidden. Proved for draws strictly between 0 and 1. Overflow is left out (rounding is Flocq's FLT)."
  },
  {
   "property": "C186",
   "status": "partial",
   "theorems": [
    "C186_sound_partial",
    "C186_clear_partial",
    "C186_none_partial",
    "C186_tied_partial",
    "C186_hidden_maximum_refuted"
   ],
   "note": "False as stated: probabilities 1/2 + 10^-18 and 1/2 - 10^-18 are rounded to the same double, so no prediction is made. Proved: every returned prediction is exact, ties are always detected, and nothing is returned only if two probabilities are within 3 * 2^-53 of the largest."
  },
  {
   "property": "C187",
   "status": "proved",
   "theorems": [
    "C187_accurate",
    "C187_at_least_the_first_reward"
   ],
   "note": "The bound M on the rewards is any number not below 10^-100 (underflow would dominate below). Overflow is left out."
  },
  {
   "property": "C188",
   "status": "partial",
   "theorems": [
    "C188_accepted_partial",
    "C188_near_partial",
    "C188_moves_partial",
    "C188_lost_birth_refuted"
   ],
   "note": "False as stated: entries up to 10^-8 are set to zero, so a creation probability of 2^-30 is lost and the state becomes absorbing. Proved: the result is always accepted, is within 10^-7 of the given probabilities, has no extra moves, and keeps every move of probability 2 * 10^-8 or more."
  },
  {
   "property": "C189",
   "status": "proved",
   "theorems": [
    "C189_moran_accepted",
    "C189_moran_accurate",
    "C189_moran_impossible_moves",
    "C189_ruin_accepted",
    "C189_ruin_accurate"
   ],
   "note": "Selection coefficients above 1, which the library accepts, are excluded: C16 refutes them already in exact arithmetic. The Wright-Fisher model is not covered (external binomial log-probabilities)."
  },
  {
   "property": "C190",
   "status": "proved",
   "theorems": [
    "C190_laplace_accepted",
    "C190_laplace_right",
    "C190_ehrenfest_accepted",
    "C190_ehrenfest_right"
   ],
   "note": "Squaring by the C library is a parameter assumed accurate to one unit in the last place; the example uses correct rounding."
  },
  {
   "property": "C191",
   "status": "proved",
   "theorems": [
    "C191_accepted",
    "C191_rows"
   ],
   "note": "Binary64 model of mc_bounded; the exact counterpart is proved separately."
  },
  {
   "property": "C192",
   "status": "partial",
   "theorems": [
    "C192_accepted_partial",
    "C192_same_chain_partial",
    "C192_blocks_partial",
    "C192_rejected_refuted"
   ],
   "note": "False as stated: with sums taken from left to right, a three-state chain whose row sum is the largest accepted double is rejected after reordering (the sum rounds one unit higher). Proved: the result is accepted whenever the exact row sums are within 9 * 10^-6 of one; it is always the same chain reordered, with the block of zeros."
  },
  {
   "property": "C193",
   "status": "proved",
   "theorems": [
    "C193_accepted",
    "C193_accurate",
    "C193_biased",
    "C193_only_drawn",
    "C193_undrawn_row_sums_to_zero"
   ],
   "note": "The draws are arguments. A row of draws that are all zero is divided by zero: proved to have sum zero, the NaN row itself is not represented."
  },
  {
   "property": "C194",
   "status": "proved",
   "theorems": [
    "C194_accepted",
    "C194_same_moves"
   ],
   "note": "The set of states is any closed one; that the library computes the closure is the subject of C26."
  },
  {
   "property": "C195",
   "status": "proved",
   "theorems": [
    "C195_accepted",
    "C195_emission_accepted",
    "C195_proportional",
    "C195_given_kept"
   ],
   "note": "Which columns are free (the placing of the required zeros) is given. Rows whose numbers drawn are all 0 keep them and are left out of C195_accepted."
  },
  {
   "property": "C196",
   "status": "proved",
   "theorems": [
    "C196_accepted",
    "C196_transitions",
    "C196_emissions",
    "C196_all_states"
   ],
   "note": "Selections of all the states with at least as many symbols as states are left out: the library then keeps the whole emission matrix (C60)."
  }
 ]
}