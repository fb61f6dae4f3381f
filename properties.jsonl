{"id": "C01", "title": "Constructor accepts exactly the (tolerance-)stochastic matrices", "statement": "MarkovChain(p, states), called from ordinary user code, succeeds exactly when p is a square numeric 2-D array of size at least 2 whose entries are finite and lie in [0,1] and whose every row sum is within 1e-8 + 1e-5 of 1, and states is None or a list of as many distinct non-blank strings; the resulting chain exposes exactly that matrix, that size and those labels. Otherwise a ValidationError is raised.", "quantifier": "all argument values (lists, arrays of any shape and numeric content including NaN and infinities, non-arrays)", "why_tests_cant": "The accept set is infinite and its boundary is a tolerance; tests sample a few malformed matrices.", "anchors": ["pydtmc/markov_chain.py:MarkovChain.__init__", "pydtmc/validation.py:validate_transition_matrix", "pydtmc/validation.py:validate_labels_input"]}
{"id": "C02", "title": "No chain with an invalid matrix can be built by the constructor, whoever calls it", "statement": "Every MarkovChain object built by calling the constructor has a matrix with entries in [0,1] and unit row sums, irrespective of which function performs the call.", "quantifier": "all calling functions (by name) and all matrices", "why_tests_cant": "The validation is skipped depending on the name of the calling function, which no fixture varies.", "anchors": ["pydtmc/markov_chain.py:MarkovChain.__init__", "pydtmc/utilities.py:get_caller", "pydtmc/utilities.py:get_instance_generators"]}
{"id": "C03", "title": "Equal chains have equal hashes", "statement": "If two Markov chains compare equal then their hashes are equal, so they can be used interchangeably as set members and dictionary keys.", "quantifier": "all pairs of Markov chains", "why_tests_cant": "Needs every pair of equal objects, including those that differ in the sign of a zero.", "anchors": ["pydtmc/markov_chain.py:MarkovChain.__eq__", "pydtmc/markov_chain.py:MarkovChain.__hash__", "pydtmc/hidden_markov_model.py:HiddenMarkovModel.__eq__", "pydtmc/hidden_markov_model.py:HiddenMarkovModel.__hash__"]}
{"id": "C04", "title": "Observers cannot change a chain", "statement": "After any sequence of reads of public attributes and public method calls, interleaved with arbitrary in-place modifications of the values these reads returned, the transition matrix and the state names of the chain are unchanged.", "quantifier": "all finite histories of reads, calls and caller-side mutations", "why_tests_cant": "A history property about aliasing; unit tests never mutate what they are handed.", "anchors": ["pydtmc/markov_chain.py:MarkovChain.p", "pydtmc/markov_chain.py:MarkovChain.states", "pydtmc/markov_chain.py:MarkovChain.conditional_probabilities", "pydtmc/markov_chain.py:MarkovChain.to_matrix"]}
{"id": "C05", "title": "Cached properties are computed once and stay constant", "statement": "For every interleaving of threads reading a cached property of the same object, the underlying function is evaluated at most once and every completed read returns that one value.", "quantifier": "all schedules of any number of threads", "why_tests_cant": "A statement about every interleaving; a test observes one.", "anchors": ["pydtmc/decorators.py:cached_property"]}
{"id": "C06", "title": "Label resolution returns the set of designated states", "statement": "An argument designating states (an index, a name, a list of indices or a list of names, or None) is resolved to the sorted list, without repetitions, of the indices it designates; it is rejected exactly when it contains an unknown name, an out-of-range index, a repetition, mixed or wrong types, too few elements or - where a proper subset is demanded - too many.", "quantifier": "all argument values and all label lists", "why_tests_cant": "Accept/reject boundary over an infinite input domain.", "anchors": ["pydtmc/validation.py:validate_labels_current", "pydtmc/validation.py:validate_label"]}
{"id": "C07", "title": "Single-valued state selections respect the minimum length", "statement": "A selection of states that must contain at least k states (for example the states kept by HiddenMarkovModel.restrict) is rejected whenever it designates fewer than k states, in whichever form it is given.", "quantifier": "all argument forms and all minimum lengths", "why_tests_cant": "Tests exercise the list form of the argument only.", "anchors": ["pydtmc/validation.py:validate_labels_current", "pydtmc/hidden_markov_model.py:HiddenMarkovModel.restrict"]}
{"id": "C08", "title": "Numeric limits mean what the call sites intend", "statement": "A numeric argument guarded by limits is accepted exactly when it respects both bounds, where the flag attached to each bound tells whether the bound itself is excluded.", "quantifier": "all values and all limit pairs", "why_tests_cant": "Boundary values times flag combinations; the flag's name suggests the opposite meaning.", "anchors": ["pydtmc/validation.py:_validate_limits", "pydtmc/validation.py:validate_float", "pydtmc/validation.py:validate_integer", "pydtmc/validation.py:validate_hyperparameter"]}
{"id": "C09", "title": "Probability vectors are accepted exactly when they are distributions", "statement": "A vector argument of stochastic kind is accepted exactly when it has the right length, finite entries in [0,1] and a total within tolerance of 1; an unconstrained vector only needs entries in [0,1], an annihilation (creation) vector moreover a first (last) entry within 1e-8 of 0.", "quantifier": "all vectors", "why_tests_cant": "Accept set with tolerances.", "anchors": ["pydtmc/validation.py:validate_vector", "pydtmc/validation.py:validate_status"]}
{"id": "C10", "title": "Partitions are accepted exactly when they are ordered partitions into at least two, fewer than n, consecutive blocks", "statement": "A partition argument is accepted exactly when, after replacing names by indices, its blocks enumerate 0..n-1 in order and the number of blocks is at least 2 and less than n.", "quantifier": "all nested lists of indices or names", "why_tests_cant": "Combinatorial accept set.", "anchors": ["pydtmc/validation.py:validate_partitions", "pydtmc/markov_chain.py:MarkovChain.lump"]}
{"id": "C11", "title": "from_matrix always yields a stochastic matrix", "statement": "For every square non-negative finite matrix of size at least 2, from_matrix returns a chain of that size with the requested (or default) names; all-zero rows become uniform and the result is exactly stochastic.", "quantifier": "all non-negative matrices", "why_tests_cant": "Universal over real matrices.", "anchors": ["pydtmc/markov_chain.py:MarkovChain.from_matrix"]}
{"id": "C12", "title": "from_matrix and from_graph preserve relative weights", "statement": "In the chain built from a non-negative matrix or a weighted graph, the transition probabilities out of a state having at least one positive weight are proportional to its weights.", "quantifier": "all non-negative weights, however small", "why_tests_cant": "Involves rows of arbitrarily small positive weights, below a hidden tolerance.", "anchors": ["pydtmc/markov_chain.py:MarkovChain.from_matrix", "pydtmc/markov_chain.py:MarkovChain.from_graph"]}
{"id": "C13", "title": "birth_death produces a stochastic tridiagonal chain", "statement": "Whenever birth_death accepts its probability vectors the resulting matrix is stochastic, has p_i on the superdiagonal, q_i on the subdiagonal, 1-p_i-q_i on the diagonal and zero elsewhere (however small the given probabilities are).", "quantifier": "all accepted vectors of any size", "why_tests_cant": "All sizes and vectors.", "anchors": ["pydtmc/markov_chain.py:MarkovChain.birth_death", "pydtmc/generators.py:mc_birth_death"]}
{"id": "C14", "title": "gamblers_ruin is the gambler's ruin chain", "statement": "For every size of at least 3 and win probability in (0,1) the chain is stochastic, its first and last states are absorbing, and each other state moves up with probability w and down with probability 1-w.", "quantifier": "all sizes and probabilities", "why_tests_cant": "All sizes.", "anchors": ["pydtmc/markov_chain.py:MarkovChain.gamblers_ruin", "pydtmc/generators.py:mc_gamblers_ruin"]}
{"id": "C15", "title": "urn_model chains are stochastic and follow the urn dynamics", "statement": "For every number n of balls, the Bernoulli-Laplace and Ehrenfest chains have 2n+1 states as documented, are stochastic and have the urn's one-step probabilities.", "quantifier": "all n", "why_tests_cant": "All sizes.", "anchors": ["pydtmc/markov_chain.py:MarkovChain.urn_model", "pydtmc/generators.py:mc_urn_model"]}
{"id": "C16", "title": "population_genetics_model returns stochastic chains for every accepted parameter", "statement": "Every chain returned by population_genetics_model('moran', ...) for accepted parameters is stochastic.", "quantifier": "all accepted sizes, selection and mutation rates", "why_tests_cant": "A parameter region where the formula breaks is not covered by fixtures.", "anchors": ["pydtmc/markov_chain.py:MarkovChain.population_genetics_model", "pydtmc/generators.py:mc_population_genetics_model"]}
{"id": "C17", "title": "Rouwenhorst approximation is stochastic", "statement": "approximation(size,'rouwenhorst',alpha,sigma,rho) yields a stochastic matrix for every size and every rho in [-1,1].", "quantifier": "all sizes and rho", "why_tests_cant": "Recursive construction; needs induction on the size.", "anchors": ["pydtmc/markov_chain.py:MarkovChain.approximation", "pydtmc/generators.py:mc_approximation"]}
{"id": "C18", "title": "Tauchen approximation is stochastic", "statement": "approximation(size,'tauchen',...) yields rows summing exactly to one with non-negative entries, whatever monotone distribution function is used.", "quantifier": "all sizes, parameters and monotone distribution functions", "why_tests_cant": "Telescoping over all sizes.", "anchors": ["pydtmc/generators.py:mc_approximation"]}
{"id": "C19", "title": "Every accepted approximation parameter yields a chain", "statement": "approximation returns a chain, rather than failing with an arithmetic error, for every autocorrelation rho in the accepted range [-1,1].", "quantifier": "all accepted rho", "why_tests_cant": "Boundary values of a continuous parameter.", "anchors": ["pydtmc/markov_chain.py:MarkovChain.approximation", "pydtmc/generators.py:mc_approximation"]}
{"id": "C20", "title": "random chains are stochastic, respect the mask and have the requested zeros", "statement": "For every sequence of random draws, random(size, zeros, mask) returns a stochastic matrix that agrees with the mask on its fixed entries and in which at least the requested number of free entries is zero.", "quantifier": "all sizes, masks, zero counts and all outcomes of the random generator", "why_tests_cant": "Universal over the generator's outputs.", "anchors": ["pydtmc/markov_chain.py:MarkovChain.random", "pydtmc/generators.py:mc_random", "pydtmc/validation.py:validate_mask"]}
{"id": "C21", "title": "dirichlet_process rows are distributions", "statement": "For every sequence of Beta draws in (0,1), dirichlet_process returns a stochastic matrix.", "quantifier": "all draws and sizes", "why_tests_cant": "Universal over the generator's outputs.", "anchors": ["pydtmc/markov_chain.py:MarkovChain.dirichlet_process", "pydtmc/generators.py:mc_dirichlet_process"]}
{"id": "C22", "title": "merge_with is the convex combination", "statement": "merge_with(other, gamma) has matrix (1-gamma)P + gamma Q and is stochastic whenever P and Q are, for every gamma in (0,1).", "quantifier": "all pairs of chains of equal size, all gamma", "why_tests_cant": "Universal.", "anchors": ["pydtmc/markov_chain.py:MarkovChain.merge_with", "pydtmc/generators.py:mc_merge_with"]}
{"id": "C23", "title": "to_lazy_chain keeps stationary distributions", "statement": "to_lazy_chain(w) has matrix diag(w) + diag(1-w)P, is stochastic, and - for a single weight below 1 - has exactly the same stationary distributions as the original chain.", "quantifier": "all chains and weights", "why_tests_cant": "Universal, relates two chains through their fixed points.", "anchors": ["pydtmc/markov_chain.py:MarkovChain.to_lazy_chain", "pydtmc/generators.py:mc_lazy"]}
{"id": "C24", "title": "to_bounded_chain only changes the boundary rows", "statement": "to_bounded_chain(condition) returns a stochastic matrix whose first and last rows are as documented for the condition and whose other rows are those of the original chain.", "quantifier": "all chains and boundary conditions", "why_tests_cant": "Universal.", "anchors": ["pydtmc/markov_chain.py:MarkovChain.to_bounded_chain", "pydtmc/generators.py:mc_bounded"]}
{"id": "C25", "title": "to_nth_order is the n-step chain", "statement": "Entry (i,j) of to_nth_order(n) is the total probability of all n-step paths from i to j, and the result is stochastic.", "quantifier": "all chains and orders", "why_tests_cant": "All orders and sizes; path sum is an independent specification.", "anchors": ["pydtmc/markov_chain.py:MarkovChain.to_nth_order", "pydtmc/generators.py:mc_nth_order"]}
{"id": "C26", "title": "to_subchain is the restriction to the reachable closure", "statement": "to_subchain(states) contains exactly the states reachable from the given ones, keeps their names, order and transition probabilities, and is stochastic.", "quantifier": "all chains and state selections", "why_tests_cant": "Reachability over all graphs.", "anchors": ["pydtmc/markov_chain.py:MarkovChain.to_subchain", "pydtmc/generators.py:mc_sub"]}
{"id": "C27", "title": "to_canonical_form is a relabelled copy in canonical form", "statement": "to_canonical_form() is a permutation of the states (names and probabilities moving together) in which every transient state precedes every recurrent one, so no transition leads from the recurrent block back to the transient block.", "quantifier": "all chains", "why_tests_cant": "Universal over graphs.", "anchors": ["pydtmc/markov_chain.py:MarkovChain.to_canonical_form", "pydtmc/markov_chain.py:MarkovChain.is_canonical", "pydtmc/generators.py:mc_canonical"]}
{"id": "C28", "title": "lump succeeds exactly on lumpable partitions and returns the lumped chain", "statement": "lump(partitions) succeeds exactly when within every block all states have the same total probability of moving to each block, and the entries of the returned matrix are these common totals; the result is stochastic.", "quantifier": "all chains and all partitions", "why_tests_cant": "The code checks a matrix identity; equivalence with the definition is a theorem.", "anchors": ["pydtmc/markov_chain.py:MarkovChain.lump", "pydtmc/generators.py:mc_lump"]}
{"id": "C29", "title": "lumping_partitions is complete and sound", "statement": "lumping_partitions lists exactly the partitions with at least two and fewer than n blocks that satisfy the ordinary lumpability criterion.", "quantifier": "all chains and all partitions", "why_tests_cant": "Completeness over an exponential family.", "anchors": ["pydtmc/markov_chain.py:MarkovChain.lumping_partitions", "pydtmc/computations.py:find_lumping_partitions"]}
{"id": "C30", "title": "Accessibility is reachability", "statement": "is_accessible(target, origin) and the accessibility matrix say that target can be reached from origin exactly when there is a path of positive-probability transitions from origin to target, for chains of any size.", "quantifier": "all chains of every size", "why_tests_cant": "The implementation uses 64-bit integer matrix powers; failures need large dense chains.", "anchors": ["pydtmc/markov_chain.py:MarkovChain.accessibility_matrix", "pydtmc/markov_chain.py:MarkovChain.is_accessible", "pydtmc/markov_chain.py:MarkovChain.are_communicating"]}
{"id": "C31", "title": "Communicating classes partition the states by mutual reachability", "statement": "communicating_classes is a partition of the states; two states are in the same class exactly when each is reachable from the other; the classes are listed by decreasing size and then by smallest position; communication_matrix is the indicator of that relation.", "quantifier": "all chains", "why_tests_cant": "Universal over graphs.", "anchors": ["pydtmc/markov_chain.py:MarkovChain.communicating_classes", "pydtmc/markov_chain.py:MarkovChain.communication_matrix"]}
{"id": "C32", "title": "Recurrent and transient classes", "statement": "Every communicating class is listed in exactly one of recurrent_classes and transient_classes; it is recurrent exactly when no positive-probability transition leaves it, and every chain has at least one recurrent class.", "quantifier": "all chains", "why_tests_cant": "Universal over graphs.", "anchors": ["pydtmc/markov_chain.py:MarkovChain.recurrent_classes", "pydtmc/markov_chain.py:MarkovChain.transient_classes"]}
{"id": "C33", "title": "Absorbing states are recurrent singletons", "statement": "A state reported as absorbing is a recurrent class by itself; no state is both absorbing and transient.", "quantifier": "all chains", "why_tests_cant": "Depends on a tolerance that only matters for probabilities extremely close to one.", "anchors": ["pydtmc/markov_chain.py:MarkovChain.absorbing_states", "pydtmc/markov_chain.py:MarkovChain.transient_states"]}
{"id": "C34", "title": "is_absorbing means every state can reach an absorbing state", "statement": "is_absorbing is true exactly when from every state some absorbing state can be reached.", "quantifier": "all chains", "why_tests_cant": "Fixpoint iteration over all graphs.", "anchors": ["pydtmc/markov_chain.py:MarkovChain.is_absorbing"]}
{"id": "C35", "title": "Irreducibility", "statement": "is_irreducible is true exactly when every state is reachable from every other.", "quantifier": "all chains", "why_tests_cant": "Universal over graphs.", "anchors": ["pydtmc/markov_chain.py:MarkovChain.is_irreducible"]}
{"id": "C36", "title": "The period of an irreducible chain is the gcd of its return times", "statement": "For an irreducible chain period is the greatest common divisor of the lengths of all closed walks, and is_aperiodic is true exactly when this is one.", "quantifier": "all irreducible chains of any size", "why_tests_cant": "Breadth-first level differences versus infinitely many closed walks.", "anchors": ["pydtmc/markov_chain.py:MarkovChain.period", "pydtmc/markov_chain.py:MarkovChain.is_aperiodic", "pydtmc/computations.py:calculate_periods"]}
{"id": "C37", "title": "periods lists the period of each communicating class", "statement": "The i-th element of periods is the period of the i-th communicating class (one for transient classes).", "quantifier": "all chains and all state names", "why_tests_cant": "Two independent orderings (by name, by position) must agree.", "anchors": ["pydtmc/markov_chain.py:MarkovChain.periods", "pydtmc/markov_chain.py:MarkovChain.communicating_classes", "pydtmc/computations.py:calculate_periods"]}
{"id": "C38", "title": "Cyclic classes rotate", "statement": "For an irreducible chain with period d >= 2, cyclic_classes is a partition of the states into d non-empty classes through which every transition moves cyclically.", "quantifier": "all periodic irreducible chains", "why_tests_cant": "Universal over graphs.", "anchors": ["pydtmc/markov_chain.py:MarkovChain.cyclic_classes", "pydtmc/computations.py:find_cyclic_classes"]}
{"id": "C39", "title": "is_regular means some power of the matrix is positive", "statement": "is_regular is true exactly when some power of the transition matrix has only positive entries.", "quantifier": "all chains of every size", "why_tests_cant": "Needs a bound on the exponent for all graphs (Wielandt-type theorem).", "anchors": ["pydtmc/markov_chain.py:MarkovChain.is_regular"]}
{"id": "C40", "title": "is_stochastically_monotone is first-order dominance of the rows", "statement": "is_stochastically_monotone is true exactly when for every i < k the distribution in row k stochastically dominates that in row i (tail sums are ordered).", "quantifier": "all chains", "why_tests_cant": "Universal.", "anchors": ["pydtmc/markov_chain.py:MarkovChain.is_stochastically_monotone"]}
{"id": "C41", "title": "Stationary distributions are stationary", "statement": "Every vector listed in pi / stationary_distributions is non-negative, sums to one and is invariant under the transition matrix; there is one for each recurrent class, positive exactly on that class.", "quantifier": "all chains", "why_tests_cant": "An elimination algorithm of arbitrary size; requires an inductive proof.", "anchors": ["pydtmc/markov_chain.py:MarkovChain.pi", "pydtmc/computations.py:gth_solve"]}
{"id": "C42", "title": "The stationary distribution of an irreducible chain is unique", "statement": "For an irreducible chain pi has a single element and every invariant probability vector equals it.", "quantifier": "all irreducible chains", "why_tests_cant": "Uniqueness quantifies over all vectors.", "anchors": ["pydtmc/markov_chain.py:MarkovChain.pi", "pydtmc/markov_chain.py:MarkovChain.is_ergodic", "pydtmc/computations.py:gth_solve"]}
{"id": "C43", "title": "Redistribution follows the chain", "statement": "redistribute(steps, initial) returns at every step k the distribution initial * P^k, which is a probability distribution.", "quantifier": "all chains, initial distributions and step counts", "why_tests_cant": "All step counts.", "anchors": ["pydtmc/markov_chain.py:MarkovChain.redistribute", "pydtmc/simulations.py:mc_redistribute"]}
{"id": "C44", "title": "Expected rewards are the sum of discounted-free expected rewards", "statement": "expected_rewards(steps, r) equals the sum for t = 0..steps of P^t r.", "quantifier": "all chains, step counts and rewards", "why_tests_cant": "All step counts.", "anchors": ["pydtmc/markov_chain.py:MarkovChain.expected_rewards", "pydtmc/measures.py:mc_expected_rewards"]}
{"id": "C45", "title": "Expected transitions count transitions", "statement": "expected_transitions(steps, initial)[i][j] is the expected number of i-to-j transitions in the first `steps` steps, so the entries sum to `steps`.", "quantifier": "all chains, step counts and initial distributions", "why_tests_cant": "The failing region needs three or more steps and a hand computation.", "anchors": ["pydtmc/markov_chain.py:MarkovChain.expected_transitions", "pydtmc/measures.py:mc_expected_transitions"]}
{"id": "C46", "title": "First passage probabilities to single states", "statement": "first_passage_probabilities(steps, i) gives for each step k and state j the total probability of the k-step paths from i that reach j for the first time at step k.", "quantifier": "all chains, states and step counts", "why_tests_cant": "Path semantics for every length.", "anchors": ["pydtmc/markov_chain.py:MarkovChain.first_passage_probabilities", "pydtmc/measures.py:mc_first_passage_probabilities"]}
{"id": "C47", "title": "First passage probabilities to a set form a sub-distribution", "statement": "For a set of first passage states the k-th value is the probability of first entering the set at step k; in particular these values never sum to more than one.", "quantifier": "all chains, state sets and step counts", "why_tests_cant": "Needs sets of two or more states where paths visit several of them.", "anchors": ["pydtmc/markov_chain.py:MarkovChain.first_passage_probabilities", "pydtmc/measures.py:mc_first_passage_probabilities"]}
{"id": "C48", "title": "First passage reward", "statement": "first_passage_reward is the expected total reward collected at steps 1..steps over the paths from the initial state that have not met the first passage states.", "quantifier": "all chains, states, rewards and step counts", "why_tests_cant": "Path semantics for every length.", "anchors": ["pydtmc/markov_chain.py:MarkovChain.first_passage_reward", "pydtmc/measures.py:mc_first_passage_reward"]}
{"id": "C49", "title": "Absorption probabilities and times", "statement": "For an absorbing chain with transient states the fundamental matrix exists; absorption probabilities satisfy the first-step equations, are non-negative and sum to one for each transient state; mean absorption times satisfy t = 1 + Qt.", "quantifier": "all absorbing chains", "why_tests_cant": "Existence of an inverse for every absorbing chain; universal.", "anchors": ["pydtmc/markov_chain.py:MarkovChain.fundamental_matrix", "pydtmc/markov_chain.py:MarkovChain.absorption_probabilities", "pydtmc/markov_chain.py:MarkovChain.mean_absorption_times", "pydtmc/measures.py:mc_absorption_probabilities"]}
{"id": "C50", "title": "Committor probabilities solve the boundary value problem", "statement": "Whenever committor_probabilities returns a vector it is 0 on the first set, 1 on the second (swapped for the backward direction) and harmonic elsewhere for the chain (for the time-reversed chain).", "quantifier": "all ergodic chains and disjoint sets", "why_tests_cant": "Universal.", "anchors": ["pydtmc/markov_chain.py:MarkovChain.committor_probabilities", "pydtmc/measures.py:mc_committor_probabilities"]}
{"id": "C51", "title": "Mean first passage times satisfy the first-step equations", "statement": "mean_first_passage_times_to(T) satisfies m(i) = 1 + sum over j outside T of p(i,j) m(j) for i outside T and is zero on T; without targets the matrix M satisfies M(i,j) = 1 + sum over k<>j of P(i,k) M(k,j) off the diagonal.", "quantifier": "all ergodic chains and target sets", "why_tests_cant": "Universal; the closed formula must be shown to solve the equations.", "anchors": ["pydtmc/markov_chain.py:MarkovChain.mean_first_passage_times_to", "pydtmc/measures.py:mc_mean_first_passage_times_to"]}
{"id": "C52", "title": "Mixing time is the first step within the cutoff", "statement": "mixing_time(initial, jump, cutoff) is the least positive multiple of jump at which the distribution is within the cutoff of the stationary distribution.", "quantifier": "all regular chains, cutoffs and jumps", "why_tests_cant": "All trajectories and jump sizes.", "anchors": ["pydtmc/markov_chain.py:MarkovChain.mixing_time", "pydtmc/measures.py:mc_mixing_time"]}
{"id": "C53", "title": "Time correlations and relaxations are powers applied to observations", "statement": "For a list of time points not exceeding the size, the returned values are pi (o1 . P^t o2) and initial P^t o2 for each listed t, whatever the gaps and repetitions in the list.", "quantifier": "all chains, observations and sorted lists of time points", "why_tests_cant": "Incremental power computation over arbitrary lists.", "anchors": ["pydtmc/markov_chain.py:MarkovChain.time_correlations", "pydtmc/markov_chain.py:MarkovChain.time_relaxations", "pydtmc/measures.py:mc_time_correlations", "pydtmc/measures.py:mc_time_relaxations"]}
{"id": "C54", "title": "Simulated walks are possible walks", "statement": "For every outcome of the random generator, simulate returns a walk that starts at the initial state, has at most steps+1 entries, uses only positive-probability transitions, and stops at the first arrival at the final state if one is given.", "quantifier": "all chains, arguments and generator outcomes", "why_tests_cant": "Universal over generator outcomes.", "anchors": ["pydtmc/markov_chain.py:MarkovChain.simulate", "pydtmc/simulations.py:mc_simulate"]}
{"id": "C55", "title": "predict returns the most probable sequence of states", "statement": "predict(steps, initial) returns, when it returns a sequence, a sequence of states of maximal probability among those of that length starting at the initial state.", "quantifier": "all chains, steps and initial states", "why_tests_cant": "Optimality over exponentially many sequences.", "anchors": ["pydtmc/markov_chain.py:MarkovChain.predict", "pydtmc/simulations.py:mc_predict"]}
{"id": "C56", "title": "Sequence probability is the product of the transition probabilities", "statement": "sequence_probability(walk) is the product of the transition probabilities along the walk.", "quantifier": "all chains and walks", "why_tests_cant": "All walk lengths; computed through logarithms.", "anchors": ["pydtmc/markov_chain.py:MarkovChain.sequence_probability", "pydtmc/simulations.py:mc_sequence_probability"]}
{"id": "C57", "title": "Decoding computes likelihood and posteriors", "statement": "decode(symbols) returns the logarithm of the total probability of the symbols over all hidden paths, and posteriors(i,t) equal to the conditional probability of hidden state i at time t given all symbols; each posterior column sums to one.", "quantifier": "all hidden Markov models and symbol sequences in which no symbol has conditional probability below 1e-300 given the preceding ones (otherwise None is returned)", "why_tests_cant": "Sum over exponentially many hidden paths.", "anchors": ["pydtmc/hidden_markov_model.py:HiddenMarkovModel.decode", "pydtmc/measures.py:hmm_decode"]}
{"id": "C58", "title": "Viterbi prediction is a most probable hidden path", "statement": "predict('viterbi', symbols) returns a hidden path maximising the joint probability of path and symbols under the model used by decode, with its log-probability.", "quantifier": "all models and symbol sequences", "why_tests_cant": "Optimality over exponentially many paths.", "anchors": ["pydtmc/hidden_markov_model.py:HiddenMarkovModel.predict", "pydtmc/simulations.py:hmm_predict"]}
{"id": "C59", "title": "HMM simulation only makes possible moves", "statement": "For every sequence of uniform draws in [0,1), simulate of a hidden Markov model only performs hidden transitions and emissions of positive probability.", "quantifier": "all models and draws", "why_tests_cant": "Universal over draws including the boundary draw 0.", "anchors": ["pydtmc/hidden_markov_model.py:HiddenMarkovModel.simulate", "pydtmc/simulations.py:hmm_simulate"]}
{"id": "C60", "title": "HMM restriction keeps matrices and names consistent", "statement": "restrict(states, symbols) returns a model whose matrices have exactly the dimensions announced by the retained names and whose rows are the renormalised retained parts.", "quantifier": "all models and selections", "why_tests_cant": "Depends on the relation between the number of states and of symbols.", "anchors": ["pydtmc/hidden_markov_model.py:HiddenMarkovModel.restrict", "pydtmc/generators.py:hmm_restrict"]}
{"id": "C61", "title": "HMM estimation from labelled sequences", "statement": "estimate returns the matrices of relative frequencies of transitions and emissions; rows never observed are uniform, and both matrices are stochastic.", "quantifier": "all sequences", "why_tests_cant": "All sequences.", "anchors": ["pydtmc/hidden_markov_model.py:HiddenMarkovModel.estimate", "pydtmc/generators.py:hmm_estimate"]}
{"id": "C62", "title": "Fitted chains are stochastic and have the documented estimator", "statement": "fit_sequence('mle'|'map') returns stochastic matrices: maximum likelihood gives relative transition frequencies (of the counts increased by 0.001 when smoothing is requested; uniform for unseen states), which without smoothing maximises the probability of the sequence; maximum a posteriori gives the mode of the Dirichlet posterior for hyperparameters of at least one.", "quantifier": "all sequences, hyperparameters", "why_tests_cant": "All sequences.", "anchors": ["pydtmc/markov_chain.py:MarkovChain.fit_sequence", "pydtmc/fitting.py:mc_fit_sequence"]}
{"id": "C63", "title": "fit_function returns a chain for every accepted function", "statement": "fit_function returns a stochastic matrix for every accepted transition function, and its quadrature nodes lie in the integration interval.", "quantifier": "all accepted functions, intervals and quadrature sizes", "why_tests_cant": "Quantifies over functions.", "anchors": ["pydtmc/markov_chain.py:MarkovChain.fit_function", "pydtmc/fitting.py:mc_fit_function"]}
{"id": "C64", "title": "Dictionary round trip", "statement": "from_dictionary(to_dictionary(mc)) == mc for every chain.", "quantifier": "all chains", "why_tests_cant": "Universal over sizes, names and values.", "anchors": ["pydtmc/markov_chain.py:MarkovChain.to_dictionary", "pydtmc/markov_chain.py:MarkovChain.from_dictionary", "pydtmc/validation.py:validate_dictionary"]}
{"id": "C65", "title": "CSV round trip", "statement": "Writing a chain to a CSV file and reading it back yields an equal chain for every list of state names, including names with commas, quotes and line breaks.", "quantifier": "all chains and state names", "why_tests_cant": "Quoting rules over all strings.", "anchors": ["pydtmc/markov_chain.py:MarkovChain.to_file", "pydtmc/markov_chain.py:MarkovChain.from_file", "pydtmc/files_io.py:read_csv", "pydtmc/files_io.py:write_csv"]}
{"id": "C66", "title": "Text round trip", "statement": "Writing a chain to a TXT file and reading it back yields an equal chain.", "quantifier": "all chains and state names", "why_tests_cant": "Fails only for names with white space, which fixtures do not use.", "anchors": ["pydtmc/markov_chain.py:MarkovChain.to_file", "pydtmc/markov_chain.py:MarkovChain.from_file", "pydtmc/files_io.py:read_txt", "pydtmc/files_io.py:write_txt"]}
{"id": "C67", "title": "XML and JSON round trips", "statement": "Writing a chain to a JSON or XML file and reading it back yields an equal chain.", "quantifier": "all chains and state names", "why_tests_cant": "Universal over names.", "anchors": ["pydtmc/files_io.py:read_json", "pydtmc/files_io.py:write_json", "pydtmc/files_io.py:read_xml", "pydtmc/files_io.py:write_xml"]}
{"id": "C68", "title": "Graph round trip", "statement": "from_graph(to_graph(mc)) has the same states and the same matrix as mc for every exactly stochastic chain.", "quantifier": "all chains", "why_tests_cant": "Universal.", "anchors": ["pydtmc/markov_chain.py:MarkovChain.to_graph", "pydtmc/markov_chain.py:MarkovChain.from_graph", "pydtmc/utilities.py:build_mc_graph"]}
{"id": "C69", "title": "Default labels are distinct", "statement": "The state names generated when none are given are pairwise distinct for every size, and for hidden Markov models the default state and symbol names are distinct as well.", "quantifier": "all sizes", "why_tests_cant": "All sizes.", "anchors": ["pydtmc/utilities.py:create_labels"]}
{"id": "C70", "title": "Moran one-step probabilities", "statement": "In population_genetics_model('moran', n, s, u, v), from a state with i mutants (0 < i < n) the number of mutants goes up, respectively down, with the probability that the replaced individual is of the other type than the (possibly mutated) offspring, reproduction being proportional to fitness.", "quantifier": "all accepted parameters and interior states", "why_tests_cant": "Fixtures use single parameter sets; the formula must hold for every u, v and s.", "anchors": ["pydtmc/generators.py:mc_population_genetics_model", "pydtmc/markov_chain.py:MarkovChain.population_genetics_model"]}
{"id": "C71", "title": "Names of lumped states are distinct", "statement": "The states of the chain returned by lump have pairwise distinct names.", "quantifier": "all chains and partitions", "why_tests_cant": "Depends on the state names, which fixtures do not vary.", "anchors": ["pydtmc/generators.py:mc_lump", "pydtmc/markov_chain.py:MarkovChain.lump"]}
{"id": "C72", "title": "Every chain has at least two states", "statement": "Every chain returned by birth_death has at least two states, like every chain the constructor accepts.", "quantifier": "all accepted probability vectors", "why_tests_cant": "Fixtures only use longer vectors.", "anchors": ["pydtmc/markov_chain.py:MarkovChain.birth_death", "pydtmc/validation.py:validate_vector"]}
{"id": "C73", "title": "identity is the identity chain", "statement": "identity(size) has the identity transition matrix of that size, for every size of at least 2.", "quantifier": "all sizes and names", "why_tests_cant": "All sizes.", "anchors": ["pydtmc/markov_chain.py:MarkovChain.identity"]}
{"id": "C74", "title": "Wright-Fisher chains", "statement": "population_genetics_model('wright-fisher', n, s, u, v) never fails with an arithmetic error for accepted parameters; it is stochastic, and from an interior state the next number of mutants is binomial with the mutated and selected success probability.", "quantifier": "all accepted parameters", "why_tests_cant": "The normalising divisor could vanish for some accepted parameters; samples cannot exclude it.", "anchors": ["pydtmc/generators.py:mc_population_genetics_model"]}
{"id": "C75", "title": "random_distribution chains are stochastic", "statement": "For every square array of draws, random_distribution returns a stochastic chain (negative draws count as zero and all-zero rows become uniform).", "quantifier": "all draws", "why_tests_cant": "All outcomes of the random generator.", "anchors": ["pydtmc/markov_chain.py:MarkovChain.random_distribution"]}
{"id": "C76", "title": "Period of a reducible chain", "statement": "For every chain, irreducible or not, period is the least common multiple of the periods of the recurrent classes, and is_aperiodic is true exactly when that number is one.", "quantifier": "all chains and state names", "why_tests_cant": "Depends on the shape of the whole graph and on the order of state names; fixtures contain few reducible periodic chains.", "anchors": ["pydtmc/markov_chain.py:MarkovChain.period", "pydtmc/markov_chain.py:MarkovChain.is_aperiodic", "pydtmc/computations.py:calculate_periods"]}
{"id": "C77", "title": "Mean recurrence times are expected return times", "statement": "For an ergodic chain mean_recurrence_times()[j] is the expected number of steps to return to j, one plus the mean passage time to j averaged over the next state.", "quantifier": "all ergodic chains", "why_tests_cant": "Needs the relation between the stationary distribution and passage times for every chain.", "anchors": ["pydtmc/markov_chain.py:MarkovChain.mean_recurrence_times", "pydtmc/measures.py:mc_mean_recurrence_times"]}
{"id": "C78", "title": "Mean first passage time between sets", "statement": "For an ergodic chain mean_first_passage_times_between(origins, targets) is the mean passage time to the targets when the start is drawn from the stationary distribution conditioned on the origins.", "quantifier": "all ergodic chains and non-empty sets", "why_tests_cant": "Universal.", "anchors": ["pydtmc/markov_chain.py:MarkovChain.mean_first_passage_times_between", "pydtmc/measures.py:mc_mean_first_passage_times_between"]}
{"id": "C79", "title": "is_ergodic and measures of non-ergodic chains", "statement": "is_ergodic is true exactly for irreducible chains of period one, and the committor, mean first passage and mean recurrence measures return None exactly for the other chains.", "quantifier": "all chains", "why_tests_cant": "All graphs.", "anchors": ["pydtmc/markov_chain.py:MarkovChain.is_ergodic", "pydtmc/measures.py:mc_committor_probabilities", "pydtmc/measures.py:mc_mean_first_passage_times_to"]}
{"id": "C80", "title": "Time correlations and relaxations beyond the number of states", "statement": "The values of time_correlations and time_relaxations at time points greater than the number of states follow the same formula as at smaller ones.", "quantifier": "all chains, observations and time points", "why_tests_cant": "Depends on the eigenvalues of the matrix being real.", "anchors": ["pydtmc/measures.py:mc_time_correlations", "pydtmc/measures.py:mc_time_relaxations", "pydtmc/computations.py:rdl_decomposition"]}
{"id": "C81", "title": "Law of the simulated walk", "statement": "simulate turns each uniform draw u into a move from i to j exactly when u falls in a half-open interval of length p_ij, the intervals of the states being disjoint and covering [0,1); so j follows i with probability p_ij, and every walk of positive probability is produced by some draws.", "quantifier": "all chains, numbers of steps and draws", "why_tests_cant": "A statement about the measure of the set of draws; a test samples finitely many.", "anchors": ["pydtmc/markov_chain.py:MarkovChain.simulate", "pydtmc/simulations.py:mc_simulate"]}
{"id": "C82", "title": "Maximum a posteriori prediction", "statement": "predict('map', symbols) returns, for each time, the first state of maximal posterior probability given all the symbols, with the log-likelihood of the symbols.", "quantifier": "all hidden Markov models, initial distributions and symbol sequences", "why_tests_cant": "Posterior probabilities are sums over exponentially many hidden paths.", "anchors": ["pydtmc/hidden_markov_model.py:HiddenMarkovModel.predict", "pydtmc/simulations.py:hmm_predict"]}
{"id": "C83", "title": "Fitted hidden Markov models are consistent", "statement": "fit returns a model whose transition and emission matrices are stochastic, of the dimensions announced by its state and symbol names, whatever the fitting type and the number of iterations.", "quantifier": "all guesses, sequences, fitting types and convergence points", "why_tests_cant": "Every iteration divides by sums of expected counts; must hold for any number of iterations.", "anchors": ["pydtmc/hidden_markov_model.py:HiddenMarkovModel.fit", "pydtmc/fitting.py:hmm_fit"]}
{"id": "C84", "title": "Documented smoothing of the maximum likelihood fit", "statement": "As documented, fit_sequence('mle') applies Laplace smoothing, adding one to every transition count, unless the fitting parameter is False.", "quantifier": "all sequences", "why_tests_cant": "The documentation states a default and an estimator for every sequence; a fixture only shows one numeric result.", "anchors": ["pydtmc/markov_chain.py:MarkovChain.fit_sequence", "pydtmc/fitting.py:mc_fit_sequence"]}
{"id": "C85", "title": "HiddenMarkovModel constructor accept set", "statement": "HiddenMarkovModel(p, e, states, symbols) called from ordinary user code succeeds exactly when p is an n x n and e an n x k array (n, k >= 2) of numbers with entries in [0,1] (real parts, for complex entries) and row sums within tolerance of 1, states and symbols are None (names P1.., E1..) or lists of n and k distinct non-blank strings, and no state name is a symbol name; the model exposes exactly these data.", "quantifier": "all argument values", "why_tests_cant": "Accept set over arbitrary nested lists and arrays, with interacting size and name conditions.", "anchors": ["pydtmc/hidden_markov_model.py:HiddenMarkovModel.__init__", "pydtmc/validation.py:validate_emission_matrix", "pydtmc/validation.py:validate_labels_input"]}
{"id": "C86", "title": "from_matrix accept set", "statement": "MarkovChain.from_matrix(m, states) succeeds exactly when m is a square array, of size at least 2, of finite non-negative numbers (real parts, for complex entries) and states is None or a list of as many distinct non-blank strings; the result is the row-normalised matrix with those names.", "quantifier": "all argument values", "why_tests_cant": "Accept set over arbitrary nested lists and arrays including NaN and infinities.", "anchors": ["pydtmc/markov_chain.py:MarkovChain.from_matrix", "pydtmc/validation.py:validate_matrix"]}
{"id": "C87", "title": "Observed sequences accept set", "statement": "An observed sequence is accepted exactly when it is a list of at least two elements, all valid indices or all known names, and it is read as the corresponding list of indices; several sequences are read one by one.", "quantifier": "all argument values and all label lists", "why_tests_cant": "Accept set over arbitrary lists.", "anchors": ["pydtmc/validation.py:validate_sequence", "pydtmc/validation.py:validate_sequences"]}
{"id": "C88", "title": "Observed sequences passed by the caller are not modified", "statement": "The list of sequences passed to HiddenMarkovModel.fit or to the assessments is left unchanged by the call.", "quantifier": "all lists of sequences, by indices or by names", "why_tests_cant": "Side effects on arguments are not asserted by value-based tests.", "anchors": ["pydtmc/validation.py:validate_sequences", "pydtmc/hidden_markov_model.py:HiddenMarkovModel.fit"]}
{"id": "C89", "title": "Boundary probabilities are probabilities", "statement": "A numeric boundary condition accepted by to_bounded_chain is a number in [0,1].", "quantifier": "all numbers including NaN", "why_tests_cant": "The accept set includes special floating-point values no fixture contains.", "anchors": ["pydtmc/validation.py:validate_boundary_condition", "pydtmc/markov_chain.py:MarkovChain.to_bounded_chain"]}
{"id": "C90", "title": "Blocks of an accepted partition are non-empty", "statement": "Every block of a partition accepted by lump contains at least one state.", "quantifier": "all nested lists", "why_tests_cant": "Accept set over arbitrary nested lists.", "anchors": ["pydtmc/validation.py:validate_partitions", "pydtmc/markov_chain.py:MarkovChain.lump"]}
{"id": "C91", "title": "Accept sets of masks, hyperparameters, rewards, intervals and time points", "statement": "A mask is accepted exactly when it has the requested shape, its cells are NaN or probabilities and the assigned ones total at most 1 per row; a hyperparameter exactly when it is a square array of integers >= 1; rewards exactly when they are a vector of finite numbers of the right length; an interval exactly when it is a pair of finite non-negative increasing numbers; time points exactly when they are a non-negative integer or a non-empty list of distinct ones, which is sorted.", "quantifier": "all argument values", "why_tests_cant": "Accept sets over arbitrary nested lists and arrays.", "anchors": ["pydtmc/validation.py:validate_mask", "pydtmc/validation.py:validate_hyperparameter", "pydtmc/validation.py:validate_rewards", "pydtmc/validation.py:validate_interval", "pydtmc/validation.py:validate_time_points"]}
{"id": "C92", "title": "Reading cached properties cannot block", "statement": "Threads reading any cached properties of any number of chains always make progress until all reads have returned, and the number of steps is bounded whatever the schedule, although every cached property takes a lock and reads other cached properties.", "quantifier": "all numbers of threads, all reads and all schedules", "why_tests_cant": "Deadlock freedom ranges over all interleavings.", "anchors": ["pydtmc/decorators.py:cached_property", "pydtmc/markov_chain.py:MarkovChain"]}
{"id": "C93", "title": "A cached result stays the same", "statement": "Once a cached result of a chain has been computed, every later read shows the same contents, whatever reads and in-place modifications of returned values happen in between.", "quantifier": "all finite histories of reads, calls and caller-side mutations", "why_tests_cant": "Histories of caller-side mutations are unbounded.", "anchors": ["pydtmc/decorators.py:cached_property", "pydtmc/markov_chain.py:MarkovChain"]}
{"id": "C94", "title": "Accept set of from_dictionary", "statement": "MarkovChain.from_dictionary accepts a dictionary exactly when it has one number in [0,1] for every ordered pair of a set of at least two non-blank names and the rows sum to 1 within the tolerance; the states then come in the order of the keys (s, s) and the matrix holds the numbers.", "quantifier": "all dictionaries with arbitrary Python keys and values", "why_tests_cant": "Accept set over arbitrary dictionaries, in any order of the keys.", "anchors": ["pydtmc/markov_chain.py:MarkovChain.from_dictionary", "pydtmc/validation.py:validate_dictionary"]}
{"id": "C95", "title": "Dictionary round trip of hidden Markov models", "statement": "HiddenMarkovModel.from_dictionary(hmm.to_dictionary()) equals hmm for every hidden Markov model accepted by the constructor.", "quantifier": "all hidden Markov models", "why_tests_cant": "Ranges over all sizes and names.", "anchors": ["pydtmc/hidden_markov_model.py:HiddenMarkovModel.from_dictionary", "pydtmc/hidden_markov_model.py:HiddenMarkovModel.to_dictionary"]}
{"id": "C96", "title": "File round trips of hidden Markov models", "statement": "Writing a hidden Markov model to a CSV, JSON, TXT or XML file and reading it back yields an equal model.", "quantifier": "all hidden Markov models, names and formats", "why_tests_cant": "Ranges over all names, including special characters.", "anchors": ["pydtmc/hidden_markov_model.py:HiddenMarkovModel.to_file", "pydtmc/hidden_markov_model.py:HiddenMarkovModel.from_file", "pydtmc/fitting.py:read_csv", "pydtmc/fitting.py:write_csv"]}
{"id": "C97", "title": "Graph round trip of hidden Markov models", "statement": "HiddenMarkovModel.from_graph(hmm.to_graph()) has the same states, symbols and matrices for every exactly stochastic model.", "quantifier": "all hidden Markov models", "why_tests_cant": "Ranges over all sizes and names.", "anchors": ["pydtmc/hidden_markov_model.py:HiddenMarkovModel.from_graph", "pydtmc/utilities.py:build_hmm_graph"]}
{"id": "C98", "title": "Accept set of from_graph", "statement": "MarkovChain.from_graph accepts a directed graph exactly when it has at least two nodes, all nodes are non-blank strings and every edge carries a positive number as its weight.", "quantifier": "all directed graphs", "why_tests_cant": "Accept set over arbitrary graphs and attributes.", "anchors": ["pydtmc/markov_chain.py:MarkovChain.from_graph", "pydtmc/validation.py:validate_graph"]}
{"id": "C99", "title": "from_graph returns stochastic matrices", "statement": "The matrix of every chain returned by from_graph has probabilities as entries and rows that sum to 1.", "quantifier": "all accepted graphs", "why_tests_cant": "The accepted weights include infinities.", "anchors": ["pydtmc/markov_chain.py:MarkovChain.from_graph"]}
{"id": "C100", "title": "from_file returns valid chains", "statement": "Every chain returned by from_file has at least two distinct non-blank state names and a matrix of probabilities whose rows sum to 1 within the tolerance.", "quantifier": "all file contents in the four formats", "why_tests_cant": "Ranges over all file contents.", "anchors": ["pydtmc/markov_chain.py:MarkovChain.from_file", "pydtmc/fitting.py:read_csv", "pydtmc/fitting.py:read_txt", "pydtmc/fitting.py:read_json", "pydtmc/fitting.py:read_xml"]}
{"id": "C101", "title": "States and symbols of a hidden Markov model are different names", "statement": "No state of a hidden Markov model has the name of one of its symbols, however the model was built.", "quantifier": "all ways of building a model", "why_tests_cant": "Ranges over all constructors and inputs.", "anchors": ["pydtmc/hidden_markov_model.py:HiddenMarkovModel.from_dictionary", "pydtmc/hidden_markov_model.py:HiddenMarkovModel"]}
{"id": "C102", "title": "Hitting probabilities", "statement": "hitting_probabilities(targets) gives, for each state, the probability that the walk started there ever visits one of the targets.", "quantifier": "all chains, all sets of targets", "why_tests_cant": "A limit over infinitely many paths; the linear system has several solutions when some states never reach the targets.", "anchors": ["pydtmc/markov_chain.py:MarkovChain.hitting_probabilities", "pydtmc/measures.py:mc_hitting_probabilities"]}
{"id": "C103", "title": "Hitting times", "statement": "hitting_times(targets) gives, for each state, the expected number of steps until one of the targets is visited, and infinity exactly for the states from which the targets may never be visited.", "quantifier": "all chains, all sets of targets", "why_tests_cant": "A limit over infinitely many paths, including reducible chains.", "anchors": ["pydtmc/markov_chain.py:MarkovChain.hitting_times", "pydtmc/measures.py:mc_hitting_times"]}
{"id": "C104", "title": "Mean number of visits", "statement": "mean_number_visits gives, for each pair of states, the expected number of visits to the second after the start in the first, infinity when it is infinite and 0 exactly when the second state cannot be reached.", "quantifier": "all chains", "why_tests_cant": "A limit over infinitely many paths; infinite values depend on the class structure.", "anchors": ["pydtmc/markov_chain.py:MarkovChain.mean_number_visits", "pydtmc/measures.py:mc_mean_number_visits"]}
{"id": "C105", "title": "Convergence to the stationary distribution", "statement": "For an ergodic chain redistribute(steps, x) comes as close as wanted to the stationary distribution reported by pi as steps grows, whatever the initial distribution; for an irreducible chain the share of time spent in each state tends to it.", "quantifier": "all ergodic (irreducible) chains, all initial distributions", "why_tests_cant": "A limit over all numbers of steps.", "anchors": ["pydtmc/markov_chain.py:MarkovChain.redistribute", "pydtmc/markov_chain.py:MarkovChain.pi"]}
{"id": "C106", "title": "Sensitivity is the derivative of the stationary distribution", "statement": "For an irreducible chain sensitivity(state) returns the matrix of the rates at which the stationary probability of the state changes when transition probabilities are changed (the rows keeping their sum); for the other chains it returns None.", "quantifier": "all irreducible chains, all states, all directions of change", "why_tests_cant": "A derivative: a limit over all small changes of the matrix.", "anchors": ["pydtmc/markov_chain.py:MarkovChain.sensitivity", "pydtmc/measures.py:mc_sensitivity"]}
{"id": "C107", "title": "is_reversible", "statement": "is_reversible is True exactly when the chain has a single stationary distribution and, started from it, every sequence of states is as probable as the reversed sequence.", "quantifier": "all chains, all sequences of states", "why_tests_cant": "Quantifies over sequences of all lengths.", "anchors": ["pydtmc/markov_chain.py:MarkovChain.is_reversible"]}
{"id": "C108", "title": "is_symmetric and is_doubly_stochastic", "statement": "is_symmetric is True exactly when the matrix equals its transpose; is_doubly_stochastic is True exactly when the uniform distribution is stationary; a symmetric chain is doubly stochastic, and reversible if it is irreducible.", "quantifier": "all chains", "why_tests_cant": "Relates three properties on all matrices.", "anchors": ["pydtmc/markov_chain.py:MarkovChain.is_symmetric", "pydtmc/markov_chain.py:MarkovChain.is_doubly_stochastic"]}
{"id": "C109", "title": "density", "statement": "density is the number of transitions between different states divided by the largest possible number of such transitions; it lies between 0 and 1.", "quantifier": "all chains", "why_tests_cant": "Ranges over all matrices.", "anchors": ["pydtmc/markov_chain.py:MarkovChain.density"]}
{"id": "C110", "title": "kemeny_constant", "statement": "For an absorbing chain with transient states kemeny_constant is the sum over the transient states of the expected number of visits to the state when the chain starts there.", "quantifier": "all absorbing chains", "why_tests_cant": "A sum of limits over infinitely many paths.", "anchors": ["pydtmc/markov_chain.py:MarkovChain.kemeny_constant"]}
{"id": "C111", "title": "incidence_matrix describes the transitions of the chain", "statement": "In incidence_matrix a column that belongs to a pair of states is non-zero only if the chain has a transition between the two states.", "quantifier": "all chains", "why_tests_cant": "Ranges over all matrices.", "anchors": ["pydtmc/markov_chain.py:MarkovChain.incidence_matrix"]}
{"id": "C112", "title": "Entropy rate", "statement": "For a chain with one stationary distribution entropy_rate is the amount by which each further state increases the entropy of the sequence of the first states; it lies between 0 and the logarithm of the number of states, and is 0 only if every visited state has a certain successor. entropy_rate_normalized is its quotient by the logarithm of the growth rate of the number of paths and lies in [0,1]. Both are None for a chain with several stationary distributions.", "quantifier": "all chains, sequences of all lengths", "why_tests_cant": "Sums over the exponentially many sequences of every length.", "anchors": ["pydtmc/markov_chain.py:MarkovChain.entropy_rate", "pydtmc/markov_chain.py:MarkovChain.entropy_rate_normalized"]}
{"id": "C113", "title": "Baum-Welch fitting never lowers the likelihood", "statement": "fit('baum-welch', ...) replaces the parameters, at every iteration, by the normalised expected numbers of transitions and of emissions given the observed sequences; the likelihood of the sequences it uses never decreases from one iteration to the next, so with one sequence the fitted model is at least as likely as the guess. A sequence is left out only if it is numerically impossible under the current parameters.", "quantifier": "all guesses, all initial distributions, all sets of sequences, all numbers of iterations", "why_tests_cant": "The classical monotonicity theorem sums over the exponentially many hidden paths and holds for every iteration.", "anchors": ["pydtmc/fitting.py:hmm_fit", "pydtmc/hidden_markov_model.py:HiddenMarkovModel.fit", "pydtmc/measures.py:hmm_decode"]}
{"id": "C114", "title": "Fitting by prediction counts the predicted transitions", "statement": "fit('map', ...) and fit('viterbi', ...) return the relative frequencies of the transitions and emissions along the hidden sequences that predict returns for the observed sequences.", "quantifier": "all guesses, all sets of sequences", "why_tests_cant": "Ranges over all models and all sets of sequences.", "anchors": ["pydtmc/fitting.py:hmm_fit", "pydtmc/hidden_markov_model.py:HiddenMarkovModel.fit"]}
{"id": "C115", "title": "from_graph takes all parallel edges into account", "statement": "In a multigraph the weight of a transition is the total weight of the parallel edges between the two nodes.", "quantifier": "all multigraphs", "why_tests_cant": "Ranges over all graphs.", "anchors": ["pydtmc/markov_chain.py:MarkovChain.from_graph", "pydtmc/hidden_markov_model.py:HiddenMarkovModel.from_graph", "pydtmc/validation.py:validate_graph"]}
{"id": "C116", "title": "The compatibility test compares a sequence with the chain", "statement": "assess_theoretical_compatibility rejects, with p-value zero, a sequence that contains a transition the chain cannot make. For any other sequence the reported statistic is the likelihood ratio: twice the difference between the log-probability of the sequence under its own transition frequencies and under the chain. It is zero exactly when the observed frequencies are those of the chain.", "quantifier": "all chains, all sequences, all significance levels", "why_tests_cant": "The statistic of a given sequence can be tested on literals; that it is the likelihood ratio and is finite for every possible sequence ranges over all of them.", "anchors": ["pydtmc/assessments.py:assess_theoretical_compatibility"]}
{"id": "C117", "title": "The homogeneity test compares the processes behind the sequences", "statement": "assess_homogeneity reports a statistic that is zero when the sequences have the same relative frequencies of transitions from every state and grows with their difference; it reaches no conclusion exactly when no two sequences share a state.", "quantifier": "all sets of sequences, all significance levels", "why_tests_cant": "Ranges over all sets of sequences of all lengths.", "anchors": ["pydtmc/assessments.py:assess_homogeneity"]}
{"id": "C118", "title": "The order test measures the dependence on the state before the last", "statement": "assess_first_order reports the sum over the current state of the Pearson statistics of the table of previous and next states (continuity corrected for two states), with n(n-1)^2 degrees of freedom; with three states or more it is zero exactly when previous and next state are independent given the current one. It reaches no conclusion exactly when one of the tables has an empty row or column.", "quantifier": "all sequences, all significance levels", "why_tests_cant": "Ranges over all sequences.", "anchors": ["pydtmc/assessments.py:assess_first_order", "pydtmc/computations.py:chi2_contingency"]}
{"id": "C119", "title": "The Markov property test depends on the observed states only", "statement": "assess_markov_property compares the observed triples with those expected from the observed pairs. The result does not depend on how the states are named, and a sequence whose triples are as expected is not rejected.", "quantifier": "all sequences, all state names, all significance levels", "why_tests_cant": "Ranges over all sequences and all names.", "anchors": ["pydtmc/assessments.py:assess_markov_property"]}
{"id": "C120", "title": "The stationarity test compares the blocks of a sequence", "statement": "assess_stationarity reports a statistic that is zero exactly when all blocks of the sequence have the same transition frequencies; a sequence is rejected only if blocks differ. It reaches no conclusion exactly when a transition occurs in no block.", "quantifier": "all sequences, all numbers of blocks, all significance levels", "why_tests_cant": "Ranges over all sequences and numbers of blocks.", "anchors": ["pydtmc/assessments.py:assess_stationarity", "pydtmc/computations.py:chi2_contingency"]}
{"id": "C121", "title": "Arguments and significance levels of the tests", "statement": "The tests accept exactly the documented arguments (significance in (0, 0.2], known states, minimal lengths). The significance level changes the decision only; what is rejected at one level is rejected at every higher level.", "quantifier": "all arguments, all distribution functions", "why_tests_cant": "Ranges over all arguments and all pairs of levels.", "anchors": ["pydtmc/assessments.py:assess_first_order", "pydtmc/assessments.py:assess_homogeneity", "pydtmc/assessments.py:assess_markov_property", "pydtmc/assessments.py:assess_stationarity", "pydtmc/assessments.py:assess_theoretical_compatibility", "pydtmc/validation.py:validate_sequence", "pydtmc/validation.py:validate_float"]}
{"id": "C122", "title": "Aggregation returns a chain of the requested size over groups of states", "statement": "For an ergodic chain with n states and 2 <= s <= n - 1, aggregate(s) returns a chain with s states. Each of them stands for a group of original states, and the groups partition the original states. The probability of moving from one group to another is the stationary conditional probability of such a move in the original chain, so the stationary probabilities of the groups are stationary for the result. Other chains and sizes are rejected.", "quantifier": "all ergodic chains, all sizes, all methods", "why_tests_cant": "Ranges over all chains and all ways the splits can turn out.", "anchors": ["pydtmc/markov_chain.py:MarkovChain.aggregate", "pydtmc/generators.py:mc_aggregate_spectral_bottom_up", "pydtmc/generators.py:mc_aggregate_spectral_top_down"]}
{"id": "C123", "title": "Random hidden Markov models follow their masks", "statement": "HiddenMarkovModel.random returns a model of the requested sizes. Its matrices keep every probability fixed by the masks, their rows sum to one, and the requested number of further cells are zero. States and symbols have the given or generated names and share none. Every request within the capacity of the masks succeeds.", "quantifier": "all sizes, masks, numbers of zeros, names and random draws", "why_tests_cant": "Ranges over all masks and all draws of the random generator.", "anchors": ["pydtmc/hidden_markov_model.py:HiddenMarkovModel.random", "pydtmc/generators.py:hmm_random", "pydtmc/validation.py:validate_mask"]}
{"id": "C124", "title": "The law of simulated hidden Markov models", "statement": "HiddenMarkovModel.simulate draws each state and symbol with the probabilities of the model: a run is produced exactly when each uniform draw falls into the interval of its outcome, whose length is the probability of that outcome, and every possible run can be produced. next performs one such step, and its three targets show the state, the symbol or both of the same step. Both accept exactly the documented arguments and show names or positions as asked.", "quantifier": "all models, all numbers of steps, all random draws, all arguments", "why_tests_cant": "Ranges over all models and all sequences of draws.", "anchors": ["pydtmc/hidden_markov_model.py:HiddenMarkovModel.simulate", "pydtmc/hidden_markov_model.py:HiddenMarkovModel.next", "pydtmc/simulations.py:hmm_simulate", "pydtmc/validation.py:validate_label"]}
{"id": "C125", "title": "Ergodicity of hidden Markov models", "statement": "is_ergodic of a hidden Markov model is true exactly when, for some number of steps and whatever the first state, every state emitting every symbol has positive probability. It has an answer for every model.", "quantifier": "all models", "why_tests_cant": "Concerns all numbers of steps of all models.", "anchors": ["pydtmc/hidden_markov_model.py:HiddenMarkovModel.is_ergodic"]}
{"id": "C126", "title": "closest_reversible searches exactly the reversible chains", "statement": "The problem that closest_reversible hands to its optimiser ranges over exactly the transition matrices that satisfy detailed balance with the given (or uniform) distribution: every point admitted by the constraints is turned into a transition matrix in detailed balance, and every such matrix comes from an admitted point, also when the distribution has null probabilities.", "quantifier": "all sizes, all distributions, all points", "why_tests_cant": "An infinite set of matrices for every distribution; fixtures check a few outcomes only.", "anchors": ["pydtmc/markov_chain.py:MarkovChain.closest_reversible", "pydtmc/generators.py:mc_closest_reversible"]}
{"id": "C127", "title": "closest_reversible minimises the distance", "statement": "Whenever its optimiser solves the problem handed to it, closest_reversible builds the transition matrix that is closest, in the Frobenius norm or its weighted form, to the given chain among all those in detailed balance with the distribution; that matrix is unique.", "quantifier": "all chains, all distributions, both norms", "why_tests_cant": "Optimality is a statement about all competing matrices.", "anchors": ["pydtmc/markov_chain.py:MarkovChain.closest_reversible", "pydtmc/generators.py:mc_closest_reversible"]}
{"id": "C128", "title": "closest_reversible returns the closest reversible chain", "statement": "closest_reversible returns a reversible chain with the names of the original one: the chain itself if it is reversible, otherwise the reversible chain closest to it. It fails only if an argument is not acceptable or the optimiser fails.", "quantifier": "all chains, all arguments", "why_tests_cant": "Concerns all chains and all competing reversible chains.", "anchors": ["pydtmc/markov_chain.py:MarkovChain.closest_reversible", "pydtmc/markov_chain.py:MarkovChain.is_reversible", "pydtmc/generators.py:mc_closest_reversible"]}
{"id": "C129", "title": "The spectral gap is the rate of convergence", "statement": "For an ergodic chain 1 - spectral_gap is the exponential rate at which the probabilities of the states approach the stationary distribution: every larger number bounds the rate and no smaller one does. relaxation_rate is the reciprocal of the gap and mixing_rate the number t of steps for which exp(-1/t) is that rate. For a chain that is not ergodic they are None.", "quantifier": "all ergodic chains of all sizes; every eigenvalue list of the transition matrix, with multiplicities", "why_tests_cant": "A rate of convergence is a statement about infinitely many steps, and about every chain.", "anchors": ["pydtmc/markov_chain.py:MarkovChain.spectral_gap", "pydtmc/markov_chain.py:MarkovChain.relaxation_rate", "pydtmc/markov_chain.py:MarkovChain.mixing_rate", "pydtmc/computations.py:slem"]}
{"id": "C130", "title": "Implied timescales", "statement": "For an ergodic chain implied_timescales lists infinity, then one timescale for each further eigenvalue in decreasing order of its absolute value x: the number t for which exp(-1/t) = x (0 if x = 0). All of them are finite, and the first one belongs to the rate at which the chain converges to its stationary distribution.", "quantifier": "all ergodic chains of all sizes", "why_tests_cant": "Needs that exactly one eigenvalue has absolute value one, which is a theorem about all ergodic matrices.", "anchors": ["pydtmc/markov_chain.py:MarkovChain.implied_timescales", "pydtmc/computations.py:eigenvalues_sorted"]}
{"id": "C131", "title": "Topological entropy counts paths", "statement": "topological_entropy is the logarithm of the exponential rate at which the number of possible sequences of k states grows with k, for every chain; it lies between 0 and the logarithm of the number of states.", "quantifier": "all chains of all sizes, ergodic or not", "why_tests_cant": "The growth rate is a limit over all path lengths.", "anchors": ["pydtmc/markov_chain.py:MarkovChain.topological_entropy", "pydtmc/computations.py:eigenvalues_sorted"]}
{"id": "C132", "title": "The Rouwenhorst chain has a binomial stationary law and the right conditional variance", "statement": "For approximation(size, 'rouwenhorst', ..., rho) with -1 < rho < 1 the only stationary distribution is the binomial distribution with size-1 trials and success probability 1/2, whatever rho, and the chain is reversible. On the equally spaced grid centred at zero the variance of the next value around rho times the current one is the same in every state, (size-1)(1-rho^2)/4 grid steps squared, as for the autoregressive process being approximated.", "quantifier": "all sizes, sigmas and correlations accepted by the generator; all states", "why_tests_cant": "Fixtures store a few rounded matrices; the claim is an identity in rho and in the size.", "anchors": ["pydtmc/markov_chain.py:MarkovChain.approximation", "pydtmc/generators.py:mc_approximation", "pydtmc/markov_chain.py:MarkovChain.stationary_distributions"]}
{"id": "C133", "title": "Urn models settle to the binomial and the hypergeometric law", "statement": "For urn_model('ehrenfest', n) and urn_model('bernoulli-laplace', n) with d = 2n balls per urn the only stationary distribution is binomial(d, 1/2), respectively hypergeometric with probabilities C(d,j)^2 / C(2d,d); both chains are reversible, and in both the expected next state from i is i + 1 - 2i/d.", "quantifier": "all n, both models, all states", "why_tests_cant": "The laws are closed formulas for every size; the fixtures are single sizes.", "anchors": ["pydtmc/markov_chain.py:MarkovChain.urn_model", "pydtmc/generators.py:mc_urn_model", "pydtmc/markov_chain.py:MarkovChain.stationary_distributions"]}
{"id": "C134", "title": "Fixation probabilities of the population models", "statement": "Without mutation, absorption_probabilities of population_genetics_model('moran', n, s) with s < 1 gives, from i individuals of the counted type, fixation with probability (1 + g + ... + g^(i-1)) / (1 + g + ... + g^(n-1)) with g = 1/(1-s), and for 'wright-fisher' with s = 0 it gives i/n; loss has the complementary probability. These are the limits of the k-step probabilities.", "quantifier": "all population sizes, all s < 1 (Moran), all initial states", "why_tests_cant": "A closed formula for every size and selection intensity, and a limit over all times.", "anchors": ["pydtmc/markov_chain.py:MarkovChain.population_genetics_model", "pydtmc/generators.py:mc_population_genetics_model", "pydtmc/markov_chain.py:MarkovChain.absorption_probabilities", "pydtmc/measures.py:absorption_probabilities"]}
{"id": "C135", "title": "Gambler's ruin", "statement": "For gamblers_ruin(size, w), absorption_probabilities gives from the capital i the classical probability (1 + g + ... + g^(i-1)) / (1 + g + ... + g^(size-2)) with g = (1-w)/w of winning everything, which is the limit of the k-step probabilities, and mean_absorption_times gives the classical duration of the game: i(size-1-i) if w = 1/2 and (i - (size-1) P(win)) / (1-2w) otherwise.", "quantifier": "all sizes, all winning probabilities, all initial capitals", "why_tests_cant": "Fixtures use single sizes and probabilities; the formulas must hold for all, including the degenerate w = 1/2.", "anchors": ["pydtmc/markov_chain.py:MarkovChain.gamblers_ruin", "pydtmc/generators.py:mc_gamblers_ruin", "pydtmc/markov_chain.py:MarkovChain.absorption_probabilities", "pydtmc/markov_chain.py:MarkovChain.mean_absorption_times"]}
{"id": "C136", "title": "Birth and death chains have the product-form stationary law", "statement": "For birth_death(p, q) with every neighbouring pair of states connected in both directions, the only stationary distribution is proportional to the products p(0)...p(i-1) / (q(1)...q(i)), and the chain is reversible.", "quantifier": "all birth and death vectors accepted by the generator with positive neighbouring probabilities", "why_tests_cant": "The product formula is for all lengths and values.", "anchors": ["pydtmc/markov_chain.py:MarkovChain.birth_death", "pydtmc/generators.py:mc_birth_death", "pydtmc/markov_chain.py:MarkovChain.stationary_distributions"]}
{"id": "C137", "title": "Selection and mutation act alike in both population models", "statement": "In population_genetics_model a selection intensity s of a given sign favours the same type under 'moran' and under 'wright-fisher', and positive mutation rates bring back a lost type: the chain then has no absorbing state.", "quantifier": "all population sizes, selection intensities, mutation rates and states", "why_tests_cant": "Each model's fixture looks plausible on its own; only a statement about both for every s and every state shows the direction.", "anchors": ["pydtmc/markov_chain.py:MarkovChain.population_genetics_model", "pydtmc/generators.py:mc_population_genetics_model"]}
{"id": "C138", "title": "Tauchen-Hussey chains are valid whatever the units", "statement": "Whenever approximation(size, 'tauchen-hussey', alpha, sigma, rho, k) returns, all entries are positive and the rows sum to one; the matrix does not depend on alpha nor on the unit of measure (multiplying sigma, and k if given, by the same positive number changes nothing); and for an even number of states it is unchanged by reversing the order of the states.", "quantifier": "all sizes, alphas, sigmas, correlations and quadrature deviations for which the quadrature converges", "why_tests_cant": "Three recorded matrices cannot show positivity or invariance for every parameter.", "anchors": ["pydtmc/markov_chain.py:MarkovChain.approximation", "pydtmc/generators.py:mc_approximation"]}
{"id": "C139", "title": "Tauchen-Hussey chains have the persistence of the process", "statement": "approximation(size, 'tauchen-hussey', alpha, sigma, rho) returns a chain whose lag-one autocorrelation approximates rho.", "quantifier": "all accepted parameters", "why_tests_cant": "The recorded matrices were produced by the same formula; no test compares them with the process.", "anchors": ["pydtmc/markov_chain.py:MarkovChain.approximation", "pydtmc/generators.py:mc_approximation"]}
{"id": "C140", "title": "Every accepted chain can be simulated", "statement": "simulate and next return a walk for every chain the constructor accepts, and hidden Markov models likewise.", "quantifier": "all chains accepted by the constructor, including those whose rows sum to one only within its tolerance; all steps, initial states and draws", "why_tests_cant": "Test matrices sum exactly to one; the tolerance of the constructor and that of the random generator are never compared.", "anchors": ["pydtmc/markov_chain.py:MarkovChain.simulate", "pydtmc/simulations.py:mc_simulate", "pydtmc/simulations.py:hmm_simulate", "pydtmc/validation.py:validate_transition_matrix"]}
{"id": "C141", "title": "Chains derived from accepted chains are acceptable", "statement": "to_lazy_chain, merge_with and to_nth_order applied to chains accepted by the constructor return matrices the constructor accepts.", "quantifier": "all chains accepted by the constructor, including those accepted within tolerance; all weights, mixtures and orders", "why_tests_cant": "Results of the class's own methods are not validated again, so nothing would report a violation.", "anchors": ["pydtmc/markov_chain.py:MarkovChain.to_nth_order", "pydtmc/markov_chain.py:MarkovChain.to_lazy_chain", "pydtmc/markov_chain.py:MarkovChain.merge_with", "pydtmc/validation.py:validate_transition_matrix"]}
{"id": "C142", "title": "The file format is the one of the file's extension", "statement": "to_file and from_file accept exactly the file names whose extension (what follows the last dot, in any letter case) is csv, json, xml or txt, and use that format.", "quantifier": "all file names", "why_tests_cant": "Tests use names with one dot; names are an unbounded set.", "anchors": ["pydtmc/markov_chain.py:MarkovChain.to_file", "pydtmc/markov_chain.py:MarkovChain.from_file", "pydtmc/hidden_markov_model.py:HiddenMarkovModel.to_file", "pydtmc/hidden_markov_model.py:HiddenMarkovModel.from_file", "pydtmc/validation.py:validate_file_path", "pydtmc/utilities.py:get_file_extension"]}
{"id": "C143", "title": "Saving a chain is all or nothing", "statement": "to_file either raises and leaves the disk as it was, or returns with the chain in the file, readable by from_file, and every other file untouched; if the process dies on the way, the file still holds its old contents or holds the new ones.", "quantifier": "all chains, file names, formats, previous disk contents, permissions and locales; all points at which the process may die", "why_tests_cant": "A crash cannot be placed at every point by a test, nor can the previous contents and permissions be enumerated.", "anchors": ["pydtmc/markov_chain.py:MarkovChain.to_file", "pydtmc/markov_chain.py:MarkovChain.from_file", "pydtmc/validation.py:validate_file_path", "pydtmc/fitting.py:write_csv", "pydtmc/fitting.py:write_json", "pydtmc/fitting.py:write_txt", "pydtmc/fitting.py:write_xml"]}
{"id": "C144", "title": "A file left by a crash is never read as another chain", "statement": "After a crash during to_file, from_file raises or returns the chain that was in the file before or the one that was being saved.", "quantifier": "all chains, formats and crash points; all beginnings of the written file", "why_tests_cant": "Every prefix of every file of every chain would have to be read.", "anchors": ["pydtmc/markov_chain.py:MarkovChain.to_file", "pydtmc/markov_chain.py:MarkovChain.from_file", "pydtmc/fitting.py:read_csv", "pydtmc/fitting.py:read_json", "pydtmc/fitting.py:read_txt", "pydtmc/fitting.py:read_xml"]}
{"id": "C145", "title": "Saving a hidden Markov model is all or nothing", "statement": "The same for hidden Markov models: to_file leaves the old file or the complete new one, other files untouched, and after a crash from_file raises or returns the old model or the new one.", "quantifier": "all hidden Markov models, file names, formats, previous disk contents and crash points", "why_tests_cant": "Every prefix of every file of every model would have to be read.", "anchors": ["pydtmc/hidden_markov_model.py:HiddenMarkovModel.to_file", "pydtmc/hidden_markov_model.py:HiddenMarkovModel.from_file", "pydtmc/fitting.py:write_txt", "pydtmc/fitting.py:read_txt", "pydtmc/fitting.py:write_csv", "pydtmc/fitting.py:read_csv"]}
{"id": "C146", "title": "The determinant is the determinant and tells whether the chain forgets", "statement": "determinant returns the determinant of the transition matrix: it lies between -1 and 1, the one of to_nth_order(k) is its k-th power, to_canonical_form does not change it, and it is zero exactly when two different distributions have the same distribution one step later.", "quantifier": "all chains, orders and numbers of states", "why_tests_cant": "A determinant computed for some matrices says nothing about others; the equivalence quantifies over all pairs of distributions.", "anchors": ["pydtmc/markov_chain.py:MarkovChain.determinant", "pydtmc/markov_chain.py:MarkovChain.to_nth_order", "pydtmc/markov_chain.py:MarkovChain.to_canonical_form"]}
{"id": "C147", "title": "The rank is the rank", "statement": "rank returns the number of linearly independent rows of the transition matrix: it equals the size exactly when different distributions always stay different, it equals one exactly when the next state does not depend on the current one, and to_nth_order never increases it.", "quantifier": "all chains, orders and numbers of states", "why_tests_cant": "The equivalences quantify over all distributions and all chains.", "anchors": ["pydtmc/markov_chain.py:MarkovChain.rank", "pydtmc/markov_chain.py:MarkovChain.to_nth_order"]}
{"id": "C148", "title": "A hidden Markov model is regular when its states can be told apart", "statement": "is_regular of a hidden Markov model tells whether different distributions of the hidden state always give different distributions of the symbol (the emission matrix has full rank in the number of states).", "quantifier": "all emission matrices with any numbers of states and symbols", "why_tests_cant": "Recorded models with as many symbols as states cannot show the difference.", "anchors": ["pydtmc/hidden_markov_model.py:HiddenMarkovModel.is_regular"]}
{"id": "C149", "title": "Probabilities typed as decimals are accepted, whatever the rounding", "statement": "A matrix whose rows sum to one, with every probability rounded to the nearest double, is accepted by the constructor on every processor; and every accepted matrix has row sums within 1.0011e-5 of one.", "quantifier": "all stochastic matrices with up to ten thousand million states; all orders and groupings in which the rows may be summed", "why_tests_cant": "The order of summation depends on the processor and memory layout, and rounding errors on every digit.", "anchors": ["pydtmc/markov_chain.py:MarkovChain.__init__", "pydtmc/validation.py:validate_transition_matrix"]}
{"id": "C150", "title": "Merged and lazy chains stay chains in floating point", "statement": "merge_with and to_lazy_chain, computed in doubles, return probabilities between 0 and 1, and their rows are off from one by no more than those of the input plus 16 units of rounding.", "quantifier": "all chains, gammas and inertial weights, for all doubles", "why_tests_cant": "Values just above one appear only for particular digits.", "anchors": ["pydtmc/markov_chain.py:MarkovChain.merge_with", "pydtmc/markov_chain.py:MarkovChain.to_lazy_chain", "pydtmc/generators.py:mc_lazy"]}
{"id": "C151", "title": "Powers of a chain stay chains in floating point", "statement": "to_nth_order, computed in doubles, returns probabilities between 0 and 1 with rows summing to one up to the accumulated rounding, so that the resulting chain can be saved and read back.", "quantifier": "all chains and orders; all ways of evaluating the matrix products", "why_tests_cant": "Values just above one appear only for particular digits and particular orders of the operations.", "anchors": ["pydtmc/markov_chain.py:MarkovChain.to_nth_order", "pydtmc/validation.py:validate_transition_matrix"]}
{"id": "C152", "title": "is_regular in floating point", "statement": "is_regular, computed in doubles, is true exactly when some power of the transition matrix is positive.", "quantifier": "all chains accepted by the constructor; all ways of evaluating the matrix products", "why_tests_cant": "The exponent grows like n to the n, and the powers underflow only for some row sums.", "anchors": ["pydtmc/markov_chain.py:MarkovChain.is_regular"]}
{"id": "C153", "title": "Lumping in floating point", "statement": "lump and lumping_partitions, computed in doubles, accept a partition exactly when the states of a block have the same probabilities of stepping into each block.", "quantifier": "all chains and partitions; all ways of evaluating the matrix products", "why_tests_cant": "The comparison is exact, so the answer depends on the last bit of each sum.", "anchors": ["pydtmc/markov_chain.py:MarkovChain.lump", "pydtmc/markov_chain.py:MarkovChain.lumping_partitions", "pydtmc/computations.py:find_lumping_partitions", "pydtmc/generators.py:mc_lump"]}
{"id": "C154", "title": "Adda-Cooper chains are valid whatever the units", "statement": "approximation with 'adda-cooper' returns positive probabilities with rows that sum to one, and the chain does not depend on alpha or sigma.", "quantifier": "all sizes, alphas, positive sigmas and rhos strictly between -1 and 1", "why_tests_cant": "The entries are integrals of the normal distribution; a test can only compare a few with numbers.", "anchors": ["pydtmc/markov_chain.py:MarkovChain.approximation", "pydtmc/generators.py:mc_approximation"]}
{"id": "C155", "title": "Adda-Cooper chains are reversible with equally likely states", "statement": "The states of an Adda-Cooper chain are equally likely in the long run: the matrix is symmetric, the uniform distribution is stationary, and reversing the order of the states changes nothing.", "quantifier": "all sizes, alphas, positive sigmas and rhos strictly between -1 and 1", "why_tests_cant": "The symmetry is a property of the bivariate normal distribution that numbers only suggest.", "anchors": ["pydtmc/markov_chain.py:MarkovChain.approximation", "pydtmc/generators.py:mc_approximation"]}
{"id": "C156", "title": "Adda-Cooper chains have the persistence of the process", "statement": "With a rho that is not negative a higher state is followed by stochastically higher states, with rho zero all transitions are equally likely, and changing the sign of rho reverses the order of the next states.", "quantifier": "all sizes, alphas, positive sigmas and rhos strictly between -1 and 1", "why_tests_cant": "The ordering must hold for every pair of states and every level.", "anchors": ["pydtmc/markov_chain.py:MarkovChain.approximation", "pydtmc/generators.py:mc_approximation"]}
{"id": "C157", "title": "Tauchen chains follow Tauchen's method for the requested rho", "statement": "A Tauchen chain moves from a grid point to the grid point nearest to rho times it plus a normal shock, with the probabilities of Tauchen's method for the rho, sigma and k that were asked for.", "quantifier": "all sizes, alphas, positive sigmas, rhos from -1 to 1 and ks of at least 1", "why_tests_cant": "The replacement of rho only shows for values very close to 1, and the result is still a plausible chain.", "anchors": ["pydtmc/markov_chain.py:MarkovChain.approximation", "pydtmc/generators.py:mc_approximation"]}
{"id": "C158", "title": "Tauchen chains keep the order of the process whatever the units", "statement": "Every transition of a Tauchen chain has a positive probability and the rows sum to 1; alpha and sigma do not change the matrix; reversing the order of the states changes nothing; with a rho that is not negative a higher state is followed by stochastically higher states; with rho zero all rows are equal.", "quantifier": "all sizes, alphas, positive sigmas, rhos above -1 and up to 1 and ks of at least 1", "why_tests_cant": "The ordering and the invariance must hold for every pair of states and all parameters.", "anchors": ["pydtmc/markov_chain.py:MarkovChain.approximation", "pydtmc/generators.py:mc_approximation"]}
{"id": "C159", "title": "Trellis diagrams can be plotted for every hidden Markov model", "statement": "plot_trellis draws a trellis diagram of every hidden Markov model for every number of steps of at least 2.", "quantifier": "all hidden Markov models, steps, initial states and random draws", "why_tests_cant": "The test plots a few models; whether the simulated symbols can be decoded depends on the model's zero probabilities and on every draw.", "anchors": ["pydtmc/plotting.py:plot_trellis", "pydtmc/simulations.py:hmm_simulate"]}
{"id": "C160", "title": "The numbers in a trellis belong to the symbol above them", "statement": "In the diagrams of plot_trellis the column headed by the t-th simulated symbol shows the forward probabilities of the states after that symbol, respectively the backward probabilities, and the symbols are those of one simulated run.", "quantifier": "all hidden Markov models, steps, initial states and random draws", "why_tests_cant": "Plot tests only check that a figure is returned; the alignment must hold for every column.", "anchors": ["pydtmc/plotting.py:plot_trellis", "pydtmc/hidden_markov_model.py:HiddenMarkovModel.decode"]}
{"id": "C161", "title": "The edges of a trellis are the possible transitions and the marked ones the most likely path", "statement": "In the diagrams of plot_trellis there is an edge between two successive columns exactly when the transition is possible at that step (from the first column: when it starts in the initial state), and exactly the nodes and edges on the Viterbi path are marked.", "quantifier": "all hidden Markov models, steps, initial states and random draws, both kinds of nodes and both directions", "why_tests_cant": "Plot tests only check that a figure is returned; the edges depend on the whole model and on every draw.", "anchors": ["pydtmc/plotting.py:plot_trellis", "pydtmc/measures.py:hmm_decode"]}
{"id": "C162", "title": "Alluvial diagrams show the distributions and the mass that moves between them", "statement": "In the diagram of plot_flow(model, steps, interval) the bars of column t share nine tenths of the height in proportion to the distribution after t * interval steps, without overlapping and separated by equal gaps; the flow between two bars has at both ends the height that belongs to the probability of being in the first state and being in the second one an interval later, and the flows divide the bars at both ends exactly.", "quantifier": "all chains, initial distributions, numbers of steps and intervals", "why_tests_cant": "Plot tests only check that a figure is returned; the positions are sums over all states and columns.", "anchors": ["pydtmc/plotting.py:plot_flow"]}
{"id": "C163", "title": "Every column of an alluvial diagram can be seen", "statement": "All the columns of the diagram of plot_flow lie in the visible range and do not overlap.", "quantifier": "all chains, initial distributions, numbers of steps and intervals", "why_tests_cant": "The range and the width of the columns depend on the number of steps; tests check no geometry.", "anchors": ["pydtmc/plotting.py:plot_flow"]}
{"id": "C164", "title": "The graph of a model has an edge for every possible transition, labelled by its probability", "statement": "In the graph of plot_graph there is an edge between two states exactly when the transition is possible; its label is the probability rounded to the digits chosen, and no possible transition is labelled as having probability zero.", "quantifier": "all Markov chains and hidden Markov models", "why_tests_cant": "The number of digits depends on the least entry of the matrices; plot tests only check that a figure is returned.", "anchors": ["pydtmc/plotting.py:plot_graph"]}
{"id": "C165", "title": "Colours and shapes of the graph tell the classes of the states", "statement": "In the graph of plot_graph two states of a chain have the same colour exactly when they communicate, transient states are rectangular and the others round; the states of a hidden Markov model have different colours.", "quantifier": "all Markov chains and hidden Markov models", "why_tests_cant": "Colours are assigned by position in the list of classes; tests plot small models only.", "anchors": ["pydtmc/plotting.py:plot_graph", "pydtmc/markov_chain.py:MarkovChain.communicating_classes"]}
{"id": "C166", "title": "Sequence plots show the simulated walk", "statement": "plot_sequence draws the walk returned by simulate with the same arguments, of steps + 1 entries: the histogram the share of the entries in each state, the heatmap the share of the moves between each pair of states, the matrix one mark per column in the row of the state at that time, with every column in the visible range. For a hidden Markov model the same holds for the states and for the symbols.", "quantifier": "all models, numbers of steps, initial states, seeds and types of plot", "why_tests_cant": "Plot tests only check that a figure is returned.", "anchors": ["pydtmc/plotting.py:plot_sequence", "pydtmc/markov_chain.py:MarkovChain.simulate"]}
{"id": "C167", "title": "Plots of redistributions show the distribution at every time", "statement": "plot_redistributions(model, k) shows for every state and every t = 0, ..., k the probability of that state after t steps, within the visible range, and never raises the ValueError about the initial status.", "quantifier": "all chains, numbers of redistributions and initial statuses", "why_tests_cant": "Plot tests only check that a figure is returned.", "anchors": ["pydtmc/plotting.py:plot_redistributions", "pydtmc/markov_chain.py:MarkovChain.redistribute"]}
{"id": "C168", "title": "Comparison plots show every model under its own name", "statement": "plot_comparison draws every one of the models in a subplot of its own with its own name, whatever their number; the grid has fewer unused subplots than rows, and the standard names are pairwise distinct.", "quantifier": "all lists of at least two models", "why_tests_cant": "The grid is computed from the number of models by roots and divisions; tests compare two or three models.", "anchors": ["pydtmc/plotting.py:plot_comparison", "pydtmc/utilities.py:create_models_names"]}
{"id": "C169", "title": "The quadratures of fit_function cover the interval", "statement": "For the gauss-chebyshev, gauss-legendre and niederreiter quadratures the nodes are distinct points of the interval, the weights are positive, and they integrate constants (gauss-chebyshev and gauss-legendre also linear functions) exactly; fit_function then returns a stochastic matrix for every non-negative transition function, with entries of a row proportional to function values times weights.", "quantifier": "all intervals, numbers of states and non-negative functions", "why_tests_cant": "Tests compare a few recorded matrices; positivity of the weights must hold for every number of states.", "anchors": ["pydtmc/markov_chain.py:MarkovChain.fit_function", "pydtmc/fitting.py:mc_fit_function"]}
{"id": "C170", "title": "The transition function receives what its parameters are named after", "statement": "fit_function accepts a function only if its parameters are named x_index, x_value, y_index and y_value, and when it is called each of them has the quantity of its name, whatever the order of the parameters.", "quantifier": "all functions, states and quadratures", "why_tests_cant": "Quantifies over functions; the tests use functions in the documented order only.", "anchors": ["pydtmc/markov_chain.py:MarkovChain.fit_function", "pydtmc/fitting.py:mc_fit_function", "pydtmc/validation.py:validate_transition_function"]}
{"id": "C171", "title": "Aggregation is ranked by the information it loses", "statement": "The number by which aggregate ranks its candidates is the Kullback-Leibler divergence rate, in bits per step, between the chain and its lifted aggregation; it is never negative, zero exactly when the aggregation loses nothing, and for given groups the aggregated matrix is the closest one.", "quantifier": "all chains with positive long-run probabilities, all groupings of the states, all numbers of steps, all chains on the groups", "why_tests_cant": "Compares laws of state sequences of every length and quantifies over all chains on the groups.", "anchors": ["pydtmc/markov_chain.py:MarkovChain.aggregate", "pydtmc/computations.py:kullback_leibler_divergence", "pydtmc/generators.py:mc_aggregate_spectral_bottom_up", "pydtmc/generators.py:mc_aggregate_spectral_top_down"]}
{"id": "C172", "title": "Questions about single states and moves are answered for the state meant", "statement": "is_recurrent_state, is_transient_state, is_cyclic_state and is_absorbing_state accept a state's name or its number and nothing else; the answers are: the state is recurrent, the opposite of that, the chain is irreducible, the state keeps itself with probability one (within the tolerance); transition_probability and emission_probability return the entry for the named origin and target, state and symbol, in this order.", "quantifier": "all chains and hidden Markov models, all arguments of any type, all orders of enumeration", "why_tests_cant": "Recurrence quantifies over walks of any length; the argument may be any object.", "anchors": ["pydtmc/markov_chain.py:MarkovChain.is_recurrent_state", "pydtmc/markov_chain.py:MarkovChain.is_transient_state", "pydtmc/markov_chain.py:MarkovChain.is_cyclic_state", "pydtmc/markov_chain.py:MarkovChain.is_absorbing_state", "pydtmc/markov_chain.py:MarkovChain.transition_probability", "pydtmc/hidden_markov_model.py:HiddenMarkovModel.emission_probability", "pydtmc/hidden_markov_model.py:HiddenMarkovModel.transition_probability", "pydtmc/validation.py:validate_label"]}
{"id": "C173", "title": "Printing a chain or a model succeeds and says the truth", "statement": "str(chain) never fails and each of its lines is true: size, rank, numbers of recurrent and transient classes, ergodicity, period, irreducibility, absorption, monotonicity, regularity, reversibility and symmetry; str(model) never fails and its lines are true.", "quantifier": "all chains and hidden Markov models, all names, all orders of enumeration", "why_tests_cant": "Every line is a statement about walks of any length, all distributions or all pairs of states.", "anchors": ["pydtmc/markov_chain.py:MarkovChain.__str__", "pydtmc/hidden_markov_model.py:HiddenMarkovModel.__str__"]}
{"id": "C174", "title": "The eigenvalue plot shows every eigenvalue and the true spectral gap", "statement": "plot_eigenvalues succeeds for every model, draws a point exactly at each eigenvalue of the transition matrix, all of them inside the unit circle, and for ergodic models shades the ring between the unit circle and the circle whose radius is the rate of convergence to the stationary distribution.", "quantifier": "all chains and hidden Markov models, all lists of their eigenvalues with multiplicities", "why_tests_cant": "Relates the drawing to all complex eigenvectors and to the limit behaviour of the powers of the matrix.", "anchors": ["pydtmc/plotting.py:plot_eigenvalues"]}
{"id": "C175", "title": "Weights turned into probabilities in floating point are a valid chain", "statement": "Whenever the library divides the rows of a matrix of non-negative doubles by their sums (random_distribution, fit, hidden Markov model sub-models, birth_death, approximation, dirichlet_process and others; all-zero rows become uniform where the code fills them), the constructor accepts the result, and each probability differs from the exact share by a relative 4*k*2^-53 at most (k columns), whatever the order in which numpy adds up the row.", "quantifier": "all matrices of non-negative doubles of any magnitude whose row sums do not overflow, up to 10^9 columns, all orders and groupings of the two summations", "why_tests_cant": "Rounding errors depend on every entry and on the order of summation; only an error analysis covers all of them.", "anchors": ["pydtmc/generators.py:mc_birth_death", "pydtmc/generators.py:hmm_estimate", "pydtmc/generators.py:mc_dirichlet_process", "pydtmc/markov_chain.py:random_distribution", "pydtmc/fitting.py:mc_fit_sequence", "pydtmc/validation.py:validate_transition_matrix"]}
{"id": "C176", "title": "Fitting in floating point gives an accepted model with the observed frequencies", "statement": "Fitting a chain by maximum likelihood, or estimating the emissions of a hidden Markov model, from any sequence gives matrices the constructor accepts; for sequences of up to 2^53 elements every entry is the observed frequency (one over the number of columns for states never left) up to a relative 4*k*2^-53, and with smoothing every transition gets a positive probability, that of the counts plus 0.001 up to a relative 12*k*2^-53.", "quantifier": "all sequences of states and symbols, all numbers of states and symbols up to 10^9, all orders of summation", "why_tests_cant": "The sequences are unbounded and counts are accumulated by rounded additions.", "anchors": ["pydtmc/fitting.py:mc_fit_sequence", "pydtmc/generators.py:hmm_estimate", "pydtmc/validation.py:validate_emission_matrix"]}
{"id": "C177", "title": "Normalisation keeps possible and impossible transitions apart", "statement": "After the rows of a matrix of weights are divided by their sums a transition has probability zero exactly when its weight was zero.", "quantifier": "all matrices of non-negative doubles, all orders of summation", "why_tests_cant": "The failing inputs span more than a thousand binary orders of magnitude.", "anchors": ["pydtmc/generators.py:mc_birth_death", "pydtmc/markov_chain.py:random_distribution", "pydtmc/fitting.py:mc_fit_sequence"]}
{"id": "C178", "title": "Draws of any distribution become a chain", "statement": "random_distribution always returns a chain: NaN and negative draws count as zero, infinite draws as finite numbers, rows without positive values become uniform, and the probabilities are the shares of the draws.", "quantifier": "all matrices of draws in doubles including infinities and NaN, all sizes up to 10^9, all orders of summation", "why_tests_cant": "Overflow depends on the draws; heavy-tailed distributions reach it only for some seeds.", "anchors": ["pydtmc/markov_chain.py:random_distribution", "pydtmc/validation.py:validate_transition_matrix"]}
{"id": "C179", "title": "Aliases answer like the members they stand for", "statement": "Every documented alias of a property or method of a chain (steady_states, is_monotone, hp, to_lazy and so on) exists, hides no other member, and gives the same answer as the member it stands for, whatever has been read or modified before.", "quantifier": "all classes with aliases (MarkovChain in particular), all histories of reads and in-place modifications of returned values", "why_tests_cant": "Histories of reads and caller-side modifications are unbounded.", "anchors": ["pydtmc/decorators.py:aliased", "pydtmc/decorators.py:object_mark", "pydtmc/decorators.py:cached_property", "pydtmc/markov_chain.py:MarkovChain"]}
{"id": "C180", "title": "Simulated walks in floating point use only possible moves, with the intended probabilities", "statement": "simulate, for a chain whose probabilities were typed by the user (each rounded to the nearest double), fitted or obtained from weights, never fails in the random choice, makes only moves of positive probability, has the requested number of moves or stops at the first visit of the final state; each move is chosen for an interval of draws whose length is the intended probability up to 17 n 2^-53.", "quantifier": "all chains of up to a million states given by such probabilities, all draws in [0,1), all starting states, final states and lengths", "why_tests_cant": "The rounding errors of the compensated sum, of the cumulative sums and of the division depend on every entry and on the size; tests see a few chains and seeds.", "anchors": ["pydtmc/simulations.py:mc_simulate", "pydtmc/markov_chain.py:MarkovChain.simulate"]}
{"id": "C181", "title": "A validation error names the rejected parameter", "statement": "When a documented function rejects an argument, the ValidationError carries the message of the failed check with the name of the rejected parameter in place of the placeholder and everything else unchanged.", "quantifier": "all the validating statements of the package, all messages, all argument values and labels", "why_tests_cant": "The name is cut out of the text of the source line that failed; there are 144 different lines, and the messages quote arbitrary labels of the user.", "anchors": ["pydtmc/utilities.py:create_validation_error", "pydtmc/markov_chain.py:MarkovChain", "pydtmc/hidden_markov_model.py:HiddenMarkovModel", "pydtmc/assessments.py:assess_first_order", "pydtmc/plotting.py:plot_graph"]}
{"id": "C182", "title": "Where a model is expected, models are accepted and everything else is rejected with a clear message", "statement": "merge_with, the assessments and the plots accept every object that is a Markov chain (or hidden Markov model, where meant) of the right size, including instances of subclasses, and reject any other object with a ValidationError about that parameter.", "quantifier": "all Python objects: None, instances of all classes, classes, functions, lists", "why_tests_cant": "The set of classes a program can define is unbounded.", "anchors": ["pydtmc/validation.py:validate_markov_chain", "pydtmc/validation.py:validate_hidden_markov_model", "pydtmc/validation.py:validate_model", "pydtmc/validation.py:validate_models", "pydtmc/markov_chain.py:MarkovChain.merge_with"]}
{"id": "C183", "title": "Redistribution in floating point stays a distribution and stays accurate", "statement": "redistribute(k, initial), for a chain whose probabilities were typed by the user (each rounded to the nearest double) or obtained from weights by normalisation, returns at every step numbers between 0 and 1 that sum to one up to 5 n 2^-53 and whose total distance from the exact distribution after k steps is at most (24 k + 2) n 2^-53: rounding errors add up and are never amplified.", "quantifier": "all chains of up to a million states, all initial distributions, all numbers of steps, all orders of summation", "why_tests_cant": "The error depends on all entries and grows with the unbounded number of steps.", "anchors": ["pydtmc/simulations.py:mc_redistribute", "pydtmc/markov_chain.py:MarkovChain.redistribute"]}
{"id": "C184", "title": "The probability of a sequence in floating point is accurate, and zero only for impossible sequences", "statement": "sequence_probability, for a chain whose probabilities were typed by the user, differs from the exact product by at most 17 (k + 1) 2^-53 for a sequence of k states, is exactly zero for a sequence with an impossible move, and positive for every possible sequence.", "quantifier": "all chains, all sequences of up to 10^12 states, all logarithms and exponentials within two units in the last place", "why_tests_cant": "The logarithms are added with rounding and the length is unbounded; underflow happens only for long sequences.", "anchors": ["pydtmc/simulations.py:mc_sequence_probability", "pydtmc/markov_chain.py:MarkovChain.sequence_probability"]}
{"id": "C185", "title": "A simulated hidden model only makes possible moves and emissions, in floating point", "statement": "simulate of a hidden model never fails for probabilities typed by the user; every move and every symbol it returns has a positive probability; it stops at the first final state or symbol after the start, and otherwise has the requested number of steps; each state or symbol is drawn for an interval of draws whose length differs from its probability by at most 17 n 2^-53.", "quantifier": "all models with up to 10^6 states and symbols, all numbers of steps, all draws", "why_tests_cant": "Cumulative sums are rounded and normalised; a forbidden move needs a draw in a rounding gap.", "anchors": ["pydtmc/simulations.py:hmm_simulate", "pydtmc/hidden_markov_model.py:HiddenMarkovModel.simulate"]}
{"id": "C186", "title": "Predictions in floating point agree with the exact chain", "statement": "For probabilities typed by the user, predict returns a walk exactly when every move along it is the unique most likely one: whatever it returns is the exact prediction, it returns nothing when the exact chain has a tie on the way, and it does return the prediction whenever the winners are ahead by more than 3 * 2^-53.", "quantifier": "all chains, all numbers of steps, all initial states", "why_tests_cant": "Ties are detected with == on rounded numbers; whether the answer is lost depends on the last bit of each row.", "anchors": ["pydtmc/simulations.py:mc_predict", "pydtmc/markov_chain.py:MarkovChain.predict"]}
{"id": "C187", "title": "Expected rewards in floating point are accurate", "statement": "expected_rewards(k, rewards), for probabilities and rewards typed by the user, differs from the exact expected total of the rewards at the times 0 to k by at most 9 (k + 1)^2 n 2^-53 times the largest absolute reward, for any order of the additions; for non-negative rewards it is never below the reward of the state itself.", "quantifier": "all chains with up to 10^6 states, all numbers of steps up to 10^6, all rewards of any sign, all orders of summation", "why_tests_cant": "Errors accumulate over the steps and with cancelling rewards; the order of summation depends on the machine.", "anchors": ["pydtmc/measures.py:mc_expected_rewards", "pydtmc/markov_chain.py:MarkovChain.expected_rewards"]}
{"id": "C188", "title": "Birth and death chains in floating point are accepted and keep the given moves", "statement": "Whenever birth_death accepts its vectors of doubles, it returns a chain (the constructor never rejects the matrix, even when the rounded sums hide an excess over one), each probability is within 10^-7 of the given one, impossible moves stay impossible, and possible moves stay possible.", "quantifier": "all vectors of doubles accepted by birth_death, up to 10^6 states, all orders of summation", "why_tests_cant": "The probability of staying is computed with rounding and can be negative; which inputs are affected depends on the last bits.", "anchors": ["pydtmc/generators.py:mc_birth_death", "pydtmc/markov_chain.py:MarkovChain.birth_death", "pydtmc/validation.py:validate_vector"]}
{"id": "C189", "title": "The Moran model and the gambler's ruin in floating point give the intended chains", "statement": "population_genetics_model with model 'moran' and s at most 1 always returns a chain (the probability of staying never rounds below zero, the constructor never rejects the matrix), every probability is within 10^-10 of the Moran model's, impossible moves have probability exactly zero and the two extreme states are never left. gamblers_ruin always returns a chain whose probabilities are correctly rounded.", "quantifier": "all doubles s in [-1, 1], u and v in [0, 1], all n from 2 to 500; all doubles w strictly between 0 and 1, up to 10^9 states; all orders of summation", "why_tests_cant": "The probability of staying is computed by two rounded subtractions and could be negative; which arguments are affected depends on the last bits.", "anchors": ["pydtmc/generators.py:mc_population_genetics_model", "pydtmc/generators.py:mc_gamblers_ruin", "pydtmc/markov_chain.py:MarkovChain.population_genetics_model", "pydtmc/markov_chain.py:MarkovChain.gamblers_ruin"]}
{"id": "C190", "title": "Urn models in floating point give the intended chains", "statement": "urn_model always returns a chain (the constructor never rejects the matrix), every probability is within 10^-14 of the Bernoulli-Laplace or Ehrenfest model's, and a move has positive probability exactly when the model allows it.", "quantifier": "all urn sizes up to 10^9 states, both models, all orders of summation, any squaring accurate to one unit in the last place", "why_tests_cant": "The rows are rounded values that are never normalised; whether their sums pass the constructor's check and whether a small square vanishes depends on the size.", "anchors": ["pydtmc/generators.py:mc_urn_model", "pydtmc/markov_chain.py:MarkovChain.urn_model"]}
{"id": "C191", "title": "Bounded chains in floating point are accepted and differ only in the boundary rows", "statement": "to_bounded_chain always returns a chain; the rows of the inner states are those of the original chain bit for bit; the first and the last row are exactly the absorbing or reflecting ones, or within one rounding of the semi-reflecting ones.", "quantifier": "all chains of doubles accepted by the constructor, up to 10^9 states, all boundary conditions accepted by the library, all orders of summation", "why_tests_cant": "The complement of the given probability is rounded and the new rows are not normalised; chains and probabilities range over all doubles.", "anchors": ["pydtmc/generators.py:mc_bounded", "pydtmc/markov_chain.py:MarkovChain.to_bounded_chain", "pydtmc/validation.py:validate_boundary_condition"]}
{"id": "C192", "title": "The canonical form in floating point is accepted and is the same chain reordered", "statement": "to_canonical_form returns a chain for every chain; its matrix is the original one, bit for bit, with the states listed in another order, the transient ones first, and no probability of leading from a recurrent to a transient state.", "quantifier": "all chains of doubles accepted by the constructor, up to 10^9 states, all orders of summation", "why_tests_cant": "The constructor checks the reordered rows again, whose rounded sums can differ from those of the original rows; the affected rows lie at the last bit of the tolerance.", "anchors": ["pydtmc/generators.py:mc_canonical", "pydtmc/markov_chain.py:MarkovChain.to_canonical_form", "pydtmc/validation.py:validate_transition_matrix"]}
{"id": "C193", "title": "Chains drawn from a Dirichlet process in floating point are the broken sticks of the draws", "statement": "Unless all the draws of a row are zero, dirichlet_process returns a chain (the allocated probability never exceeds one, no weight is negative, the constructor never rejects the matrix); each probability is the piece of the broken stick over the total of the pieces t, up to 3 * 10^-15 n^2 / t; shifting the concentration reverses the rows; with a diagonal bias each probability is the biased share up to 2 * 10^-15 n; an outcome drawn with zero has probability zero.", "quantifier": "all matrices of draws in [0, 1] that are doubles, up to 10^9 states, with and without bias and shift, all orders of summation", "why_tests_cant": "The remaining length is computed by repeated rounded subtractions and could become negative; the draws range over all doubles.", "anchors": ["pydtmc/generators.py:mc_dirichlet_process", "pydtmc/markov_chain.py:MarkovChain.dirichlet_process"]}
{"id": "C194", "title": "Subchains in floating point make the same moves as the original chain", "statement": "to_subchain, for states whose closure has at least two states, always returns a chain (the constructor never rejects the matrix); a move has positive probability in it exactly when it has in the original chain, however small, and each probability is within 2 * 10^-5 of the original one, relatively.", "quantifier": "all chains of doubles accepted by the constructor, up to 10^9 states, all closed sets of states, all orders of summation", "why_tests_cant": "The rows are divided by rounded sums; subnormal probabilities could vanish; the chains range over all doubles.", "anchors": ["pydtmc/generators.py:mc_sub", "pydtmc/markov_chain.py:MarkovChain.to_subchain"]}
{"id": "C195", "title": "Random chains in floating point are accepted and follow the mask", "statement": "MarkovChain.random with a mask always returns a chain, and HiddenMarkovModel.random a model (the constructors never reject the matrices for rounding): every probability given in the mask is kept exactly, every other one lies between 0 and 1 and is what the given values of its row leave, shared in proportion to the numbers drawn, with an error below 10^-6 of its share of the numbers drawn (plus 2^-1075).", "quantifier": "all sizes up to 10^9, all masks of doubles whose rows either leave something (by the library's own test) or give every value and sum to 1 within 9 * 10^-6, all numbers drawn unless all those of a row are 0, all orders of summation", "why_tests_cant": "The rows are not divided by their sums: the free entries are multiplied by a rounded quotient, and a product just above 1 or a row sum outside the tolerance would be rejected; masks and draws range over all doubles.", "anchors": ["pydtmc/generators.py:mc_random", "pydtmc/generators.py:hmm_random", "pydtmc/markov_chain.py:MarkovChain.random"]}
{"id": "C196", "title": "Restricted hidden models in floating point are accepted and are the renormalised parts", "statement": "HiddenMarkovModel.restrict always returns a model (the constructor never rejects its matrices for rounding); each probability is the share of the original one in the part of its row that is kept, equal shares when that part is all zero, with a relative error below 4 * 2^-53 times the number of columns kept (plus 2^-1075).", "quantifier": "all models of doubles accepted by the constructor with up to 10^9 states and symbols, all selections of at least two states and at least two symbols that drop a state or keep fewer symbols than there are states, all orders of summation", "why_tests_cant": "The kept parts of the rows can have any total, down to the smallest doubles, and are divided by rounded sums; models and selections range over all sizes.", "anchors": ["pydtmc/generators.py:hmm_restrict", "pydtmc/hidden_markov_model.py:HiddenMarkovModel.restrict"]}
