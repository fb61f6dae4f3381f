# Design: a Rocq (Coq 8.16.1) model of PyDTMC

## 1. What is modelled and how

The model mirrors the Python functions branch by branch as total, computable Gallina functions.

* **Exceptions are values.** `Base.res A := Ok a | Err e`; each `raise` is an `Err`.
* **Numbers.** Python floats are modelled by exact rationals `Qc` (canonical rationals of the
  standard library: decidable Leibniz equality, `ring`, `field`, evaluates under `vm_compute`).
  *Floating-point rounding is not modelled, except in C149 to C153, C175 to C178, C180 and C183 to C196 (binary64 through Flocq).*  Tolerances (`numpy.isclose`, `allclose`) are modelled
  literally with `rtol = 1e-5` and `atol = 1e-8`, because several behaviours depend on them.
  Where NaN or infinities can be supplied by a caller, inputs have type `num` (finite, +inf, -inf, NaN).
  Where a logarithm or an exponential is part of the claim, the standard library's `R` is used.
  The integer accessibility matrix is modelled in `Z` with explicit wrap-around at 64 bits.
* **Arrays.** A matrix is a `list (list Qc)`, read by a total accessor, and built by a tabulating
  constructor; every theorem carries the shape (`wf n m`), so the accessor default is never reached.
  In-place updates become functions returning the new array; where aliasing is the point
  (`expected_transitions`, returned views, cached values) the model has an explicit heap.
* **Graphs.** `networkx` graphs are represented by the positive-entry relation of the matrix;
  `strongly_connected_components` / `condensation` are modelled by their specification (mutual
  reachability computed by closure), the order in which networkx enumerates components being
  irrelevant because PyDTMC sorts them.
* **Linear solvers.** `numpy.linalg.inv` / `solve` are modelled by an executable exact Gauss-Jordan
  elimination proved sound and complete, so no assumption on a solver remains. `eig`, `lstsq`, `nnls`
  and `scipy.optimize`, and the C library's `pow` in C190, are not modelled (or appear as oracle arguments of a theorem).
* **Randomness.** A random generator is the list (or function) of the values it returns; theorems
  quantify over all of them, under the range numpy documents.
* **Python values.** Validators take `pyval`, a small universe of dynamic values.

## 2. File layout (`rocq/theories`)

`Base*.v`, `Qc*.v`, `Mat*.v` are libraries; `M_*.v` hold model definitions only; `S_*.v` hold the
independent specifications only (what stochastic, walk, reachable, period, lumpable, ... mean); `L_*.v` hold proofs;
`P_*.v` hold only property theorems, each closed by `exact`, with a non-vacuity `Example` and
`Print Assumptions`.

## 3. Plan for each property

| id | modelled | proof |
|----|----------|-------|
| C01 | constructor, transition-matrix and label validators over `pyval` | case analysis: `Ok` iff the stated predicate |
| C02 | constructor with the caller's function name as an argument | `_refuted` by a witness; `_partial` for other callers |
| C03 | matrices of floats with signed zero, `tobytes`, `array_equal` | `_refuted` witness; `_partial` without negative zeros |
| C04 | heap of arrays and lists, reads returning references or copies | invariant over histories for copying reads; `_refuted` for views |
| C05 | interleaving machine of `cached_property` with its lock | invariant over schedules |
| C06, C07 | `validate_labels_current`, `validate_label` over `pyval` | case analysis; C07 `_refuted` for scalar arguments |
| C08 | `_validate_limits` | case analysis |
| C09 | `validate_vector`, `validate_status` | case analysis |
| C10 | `validate_partitions` | list reasoning |
| C11, C12 | `from_matrix`, `from_graph` normalisation | sums; C12 `_refuted` below the tolerance |
| C13-C16 | `mc_birth_death`, `mc_gamblers_ruin`, `mc_urn_model`, Moran | row-sum lemmas; C16 `_refuted` for s > 1 |
| C17-C19 | Rouwenhorst recursion, Tauchen with abstract cdf, guard on rho | induction on size (row generating functions, autocorrelation rho); cell probabilities and telescoping; C19 `_refuted` at rho = -1 |
| C20, C21 | `mc_random`, `mc_dirichlet_process` with draw oracles | row-sum lemmas; stick-breaking specification |
| C22-C28 | `mc_merge_with`, `mc_lazy`, `mc_bounded`, `mc_nth_order`, `mc_sub`, `mc_canonical`, `mc_lump` | matrix algebra; Warshall invariant; permutation |
| C29 | `find_lumping_partitions` | completeness on consecutive partitions (`_partial`), `_refuted` in general |
| C30 | int64 accessibility | path counting in Z; `_partial` without overflow, `_refuted` by an 18-state chain |
| C31-C35 | class computations | reachability closure; fixpoint iteration |
| C36-C38 | breadth-first gcd, cyclic classes | divisibility of closed-walk lengths by level differences |
| C39 | power test | Wielandt / Holladay-Varga type bound |
| C40 | tail-sum test | sums |
| C41, C42 | GTH elimination | induction on the size via censored chains; maximum principle for uniqueness |
| C43-C48, C53 | iterative measures | induction on the steps; path sums |
| C49-C51 | linear systems | Gauss-Jordan correctness; nonsingularity by a maximum principle |
| C52 | mixing-time loop | induction on iterations; `_refuted` for jump > 1 |
| C54-C56 | simulation, prediction, sequence probability | induction over draws/steps; C55 `_refuted` (greedy) |
| C57-C61 | HMM decode, Viterbi, simulate, restrict, estimate | path sums; C58, C59, C60 have `_refuted` parts |
| C62, C63 | fitting | counting lemmas; C63 `_refuted` for negative functions and shifted nodes |
| C64-C68 | dictionary, CSV, TXT, XML and JSON writers and readers at character level, graph | decode-encode inductions; `_refuted` for white space, long fields, control characters |
| C69 | decimal label generation | names are prefix ++ decimal of 1..n; injectivity of decimal printing |
| C70, C74 | Moran and Wright-Fisher rows | one-step probabilities as a sum over the two drawn alleles / binomial sums; C70 `_refuted` for u <> v |
| C71, C72, C73 | lumped names, minimum size, identity | list reasoning; C71, C72 have `_refuted` parts |
| C75 | `random_distribution` | row sums over the draws |
| C76 | `period` of reducible chains | lcm of the class periods; `_refuted` for unsorted names |
| C77, C78, C79 | mean recurrence, passage between sets, ergodicity | Gauss-Jordan and the maximum principle |
| C80 | correlations beyond the number of states | diagonalisation as an argument; `_refuted` for complex eigenvalues |
| C81 | law of the simulated walk | slots of the cumulative sums |
| C82 | MAP prediction | forward-backward equals path sums |
| C84 | documented smoothing | `_refuted` |
| C83 | Baum-Welch, MAP and Viterbi fitting | invariant of the iteration; `_refuted` columns |
| C85, C86, C87, C91 | accept sets of the remaining validators over the universe of Python values | exact characterisations, branch by branch |
| C88, C89, C90 | side effects and accept sets that are wrong | `_refuted` with the exact positive part |
| C92 | interleaving machine of `cached_property`, one lock per property | lock order from the acyclic read table; a cost measure decreasing at each step |
| C93 | heap model of chains | places of cells are invariant; `_refuted` for writes to cached arrays |
| C94, C98 | `validate_dictionary`, `validate_graph` over Python values | exact accept sets |
| C95, C96, C97 | dictionaries, files and graphs of hidden Markov models | as for chains |
| C99, C100, C101 | validity of what the readers return | `_refuted` (infinite weights, negative entries, blank and common names) with positive parts |
| C102, C103 | `hitting_probabilities`, `hitting_times` with `nnls` as an argument | limits of path probabilities and of truncated means; minimal solution by monotone convergence; basic solutions of the linear system (`S_Nnls.v`), a solver that meets the assumption in `L_Nnls.v` |
| C104 | `mean_number_visits` | first-return probabilities as limits, geometric argument for transient states, divergence on recurrent classes; `_refuted` inside the tolerances |
| C105 | `redistribute`, `pi` | powers of a regular matrix contract (`L_Ergodic.v`); the fundamental matrix for averages |
| C106 | `sensitivity` with `lstsq` as an argument | Poisson equation for the perturbed chain gives an exact difference formula; the derivative follows |
| C107 | `is_reversible` | detailed balance is equivalent to equal probabilities of reversed sequences; Kolmogorov's loop criterion; `_refuted` inside the tolerances |
| C108 | `is_symmetric`, `is_doubly_stochastic` | column sums and the uniform distribution; `_refuted` inside the tolerances |
| C109 | `density` | counting argument |
| C110 | `kemeny_constant` | trace of the fundamental matrix, exact transient states |
| C111 | `incidence_matrix` | `_refuted`: the transition matrix is not used |
| C112 | `entropy_rate`, `entropy_rate_normalized` with the eigenvalues as an argument | chain rule for block entropies; Gibbs' inequality and the number of paths for the bounds; `_refuted` near zero |
| C113 | the Baum-Welch branch of `fit` | forward-backward sums = sums over hidden paths (`S_Bw.v`); EM monotonicity by Gibbs' inequality, the logarithm of a positive sum is concave |
| C114 | the `map` and `viterbi` branches of `fit` | last iteration of the loop; `_refuted` for several sequences |
| C115 | `from_graph` on multigraphs | the edge list reduced to the last edge of each pair; `_refuted`: weights of parallel edges are lost |
| C116 | `assess_theoretical_compatibility` | likelihood ratio of path probabilities, Gibbs' inequality; `_refuted`: divided by arrivals, not departures |
| C117 | `assess_homogeneity` | Gibbs' inequality on pooled pair counts; `_refuted`: unbounded on equal transition frequencies |
| C118 | `assess_first_order`, `chi2_contingency` | Pearson statistics written from the counts (`S_Assess.v`) |
| C119 | `assess_markov_property` | lists of distinct triples and pairs; `_refuted` for constant sequences and for names that run together |
| C120 | `assess_stationarity` | Pearson statistics of block frequencies; `_refuted` for the default number of blocks and for two states in two blocks |
| C121 | all five tests | exact accept sets; monotone in the level |
| C122 | `aggregate`, bottom-up and top-down | invariants of the group columns (cover, disjoint, not empty); eigenvector signs and divergence are arguments; two refutations |
| C123 | `HiddenMarkovModel.random` | draws are arguments; cells followed from mask to result as for C20; totality; refutation: zeros spent in complete rows |
| C124 | `HiddenMarkovModel.simulate`, `next` | downward scan of cumulative sums = right-closed intervals; uniqueness of the interval; midpoints as draws for a given run |
| C125 | `HiddenMarkovModel.is_ergodic` | constructor guards of MarkovChain, then regularity of the chain (L_Ergodic) and positive emissions |
| C126 | `closest_reversible`, constraints and basis matrices | the optimiser is an argument; the admissible points correspond exactly to the matrices in detailed balance with the distribution |
| C127 | `closest_reversible`, objective | the objective is the squared (weighted) Frobenius distance minus a constant; an exact solution gives the closest matrix, which is unique (strict convexity) |
| C128 | `closest_reversible`, method | all outcomes for an exact optimiser; two refutations (several recurrent classes; other distributions) |
| C129 | `slem`, `spectral_gap`, `relaxation_rate`, `mixing_rate`, with the eigenvalues as an argument | eigenvalues = diagonal of a triangular matrix similar to P (complex numbers as pairs of reals); its powers converge, so exactly one diagonal entry is 1 and the others are smaller; a weighted norm bounds the powers of P minus its limit; two refutations for slow chains |
| C130 | `implied_timescales` | as C129 |
| C131 | `topological_entropy` | the number of paths is the sum of the entries of a power of the adjacency matrix; spectral radius as for C129 |
| C132 | `approximation` (Rouwenhorst), `stationary_distributions`, `is_reversible` | the generating function of a row gives detailed balance with the binomial weights by comparing coefficients of two polynomials; second derivative for the variance |
| C133 | `urn_model` and the same properties | detailed balance on a line; Vandermonde's identity |
| C134 | `population_genetics_model`, `absorption_probabilities` | the harmonic function is unique (maximum principle); powers of the transient block vanish |
| C135 | `gamblers_ruin`, `absorption_probabilities`, `mean_absorption_times` | as C134; the duration solves the same linear system |
| C136 | `birth_death`, `stationary_distributions` | detailed balance on a line |
| C137 | `population_genetics_model`, both models | mean of a row; counterexamples |
| C138 | `approximation` ('tauchen-hussey'): Newton's iteration, nodes, weights, matrix, over the real numbers | positivity of densities; normalised rows; density shifts and scalings |
| C139 | the same, two states | Newton's iteration for the square root of 1/2 converges; quotient of densities |
| C140 | `simulate`, `hmm_simulate` with numpy's check of probabilities | invariant of the loop; counterexample |
| C141 | `to_lazy_chain`, `merge_with`, `to_nth_order` on chains accepted within tolerance | bounds on row sums; counterexample |
| C142 | file names and their suffixes (`format_of`), against "what follows the last dot" | string induction; counterexample with two dots |
| C143 | `to_file` as a list of effects on a disk (open for writing during validation, open again, write), crashes between and inside effects | case analysis over the effects; counterexamples: empty file after a crash and after a failed save |
| C144 | `from_file` on every beginning of a written file | each reader is followed over an arbitrary cut: JSON and XML cannot close their brackets, CSV and TXT lose at most part of the last number; counterexample |
| C145 | the same for hidden Markov models | the dictionary of a cut TXT file is followed entry by entry; counterexample |
| C146 | `determinant` as exact LU with partial pivoting | alternating multilinearity of the first-column expansion; multiplicativity through elimination |
| C147 | `rank` by elimination, against a basis of the rows | induction on the columns; exchange argument for uniqueness |
| C148 | HMM `is_regular` | full row rank is injectivity on distributions; counterexamples with n<k and n>k |
| C149 | row-sum check of the constructor in binary64 (`M_Float.v`), sums in any order | error bounds by induction on the tree of additions |
| C150 | `merge_with`, `to_lazy_chain` in binary64 | monotonicity of rounding; error of each operation |
| C151 | `to_nth_order` (binary powering) in binary64 | `_refuted` entry 1+2^-52; row errors through any tree of products |
| C152 | `is_regular` in binary64 | `_refuted` by underflow on every machine; positivity is preserved while nothing underflows |
| C153 | `lump`, `lumping_partitions` in binary64 | `_refuted` by a chain of the test data; accepted partitions are nearly lumpable |
| C154 | Adda-Cooper `approximation` over the reals, integrals between infinite ends (`S_Adda.v`) | Gauss's integral; the entries as boxes of the bivariate normal distribution; telescoping |
| C155 | the same | symmetry of the bivariate distribution by comparing derivatives |
| C156 | the same | comparison of integrands cell by cell; reflection |
| C157 | Tauchen's `approximation` over the reals (`S_TauchenR.v`: grid, cells, nearest point) | algebra of the grid; monotone distribution function for the counterexample |
| C158 | the same | telescoping; scaling of the grid; monotonicity and symmetry of the distribution function |
| C159 | plot_trellis up to the drawing calls: simulation, decoding, numbers, headers, nodes and edges as data (`M_Trellis.v`) | positivity of every forward factor; a model in which the simulated word is always impossible |
| C160 | the same | forward and backward recursions of C56; a computed run |
| C161 | the same, including the order in which networkx lists the edges | membership in the edge lists; marks are set by position in the list, so equal lists give equal marks |
| C162 | plot_flow up to the drawing calls: ends of the bars and flows (`M_Flow.v`); the curves between the ends are left out | closed forms of the cumulative sums; Chapman-Kolmogorov for the arriving flows |
| C163 | the same with the horizontal positions and the range of _xticks_steps | linear arithmetic in the number of steps |
| C164 | plot_graph: digits, labels and edges (`M_GraphPlot.v`); log10 exact, labels as integers over a power of ten | the least entry bounds every label |
| C165 | the same: colours by position in the list of classes, shapes by the transient states | the classes are a partition; positions modulo nine |
| C166 | plot_sequence up to the drawing calls (`M_Plots.v`), on top of simulate of chains and hidden Markov models | counting by sums of indicators |
| C167 | plot_redistributions: points and ranges | the redistributions are the k-step distributions |
| C168 | plot_comparison: the grid and which model goes where; names as label and number | integer square root; zip of lists |
| C169 | the gauss-chebyshev, niederreiter and gauss-legendre quadratures over the real numbers (`M_QuadR.v`) | telescoping sums for Fejer's weights; irrationality of the square root of two; Newton's iteration for two nodes |
| C170 | validate_transition_function and the positional call (`M_TFun.v`) | permutations of four names; counterexample with exchanged names |
| C171 | kullback_leibler_divergence over the real numbers (`M_KL.v`) | chain rule for the divergence of path laws, ln x <= x - 1 with its equality case, stationarity |
| C172 | the four is_*_state methods, transition_probability, emission_probability (`M_Query.v`) | designation of labels (C05 family), classification lemmas of C31 to C36 |
| C173 | __str__ of chains and hidden Markov models, as strings (`M_Query.v`) | each line from the property of the attribute it prints, class counts by a permutation argument; counterexamples by computation and a parity invariant |
| C174 | plot_eigenvalues: points and ring (`M_EigPlot.v`), given the eigenvalues | similarity to a triangular matrix, back substitution for the eigenvectors, boundedness of the powers, C129 for the rate |
| C175 | division of rows by their sums in binary64 (`M_FloatNorm.v`) | computed sums bound every term, error analysis over any summation tree |
| C176 | mc_fit_sequence ('mle') and hmm_estimate in binary64 (`M_FloatNorm.v`) | counts below 2^53 are exact, then C175 |
| C177 | zero pattern of normalised rows | underflow witness; error bound for the rest |
| C178 | random_distribution in binary64 with overflow, infinities and nan (`M_RandDist.v`) | reduction to C175 when no total overflows; `_refuted` by two infinite draws |
| C179 | aliased, object_mark and the table of the members of MarkovChain (`M_Alias.v`) | invariant of the instance dictionary over histories; `_refuted` by an in-place change of pi |
| C180 | mc_simulate with numpy's choice in binary64: compensated sum, cumulative sums, search (`M_FloatSim.v`) | error bound of the compensated sum; a zero entry leaves the cumulative sum unchanged; last entry is exactly 1 |
| C181 | create_validation_error on texts, and the validating statements (`M_Message.v`) | induction over texts; the list of statements is checked by computation; `_refuted` by a label that looks like the placeholder |
| C182 | validate_markov_chain(s), validate_hidden_markov_model(s), validate_model(s) on a model of Python classes (`M_ModelArg.v`) | case analysis; `_refuted` by a subclass and by a number |
| C183 | mc_redistribute in binary64 (`M_FloatRed.v`) | stochastic matrices do not increase distances, so the errors of the steps add up |
| C184 | mc_sequence_probability in binary64 with accurate log and exp (`M_FloatSeq.v`) | all logarithms have one sign, so the relative error of the exponent is small, and s exp(-s/2) is bounded; `_refuted` by underflow |
| C185 | hmm_simulate in binary64: normalised cumulative rows searched from the top (`M_FloatHmm.v`) | the selected entry lies between two cumulative values, which coincide for a zero probability; `_refuted` by the draw 0.0 |
| C186 | mc_predict in binary64: the indices equal to the largest entry of a row (`M_FloatPredict.v`) | rounding is monotone, so a strict order of doubles comes from a strict order of the reals; `_refuted` by two probabilities with the same double |
| C187 | mc_expected_rewards in binary64 with any order of summation (`M_FloatRew.v`) | error of a dot product with signs, then induction on the steps: the exact step is a contraction in the maximum norm |
| C188 | birth_death and mc_birth_death in binary64, from the checks to the division by the row sums (`M_FloatBirth.v`) | a negative residue is at most 3 uu and is set to zero; then the results on normalised rows; `_refuted` by a small probability |
| C189 | mc_population_genetics_model for 'moran' and mc_gamblers_ruin in binary64 (`M_FloatMoran.v`) | rounding errors of each step below 10^-11, the exact probability of staying at least 10^-6; then the results on normalised rows |
| C190 | mc_urn_model in binary64, squaring as a parameter with its accuracy (`M_FloatUrn.v`) | rounding errors of each step below 20 units of 1.2 * 10^-16; row sums close to one |
| C191 | mc_bounded in binary64 (`M_FloatUrn.v`) | the boundary rows sum to one up to rounding, the others are kept |
| C192 | mc_canonical in binary64, with the constructor's check of the result (`M_FloatCanon.v`) | sums of permuted rows; error bounds on any order of summation; `_refuted` by a row at the edge of the tolerance |
| C193 | mc_dirichlet_process in binary64, the draws as arguments (`M_FloatDir.v`) | invariant: the allocated probability is a double between 0 and 1; errors of the allocation grow by 7 units per step; results on normalised rows |
| C194 | the end of mc_sub in binary64, on a closed set of states (`M_FloatSub.v`) | the rows of a closed set keep their sums, which the constructor has bounded; results on normalised rows |
| C195 | the filling of the rows in mc_random in binary64, free columns and numbers drawn given (`M_FloatRand.v`) | the test of full rows leaves at least 9.6 * 10^-6; a rounded sum is at least each of its terms and the sharp relative error u / (1 + u) of the quotient keep every entry at most 1; errors of the entries summed over the row |
| C196 | hmm_restrict in binary64, selections given as indices (`M_FloatRestr.v`) | the accepted entries are non-negative doubles; results on rows turned into shares (C175) |

No property was found to be inexpressible; where only part can be carried, the theorem is named `_partial`.

## 4. Trusted base

* Coq's kernel (and `coqchk`).
* The reading of the Python code: each definition cites the lines it models and names its simplifications.
* Exact arithmetic in place of IEEE doubles, except in C149 to C153, C175 to C178, C180 and C183 to C196, which use the rounding function of the Flocq
  library (its axiom-free core over the standard reals): to nearest even, subnormals included, overflow left out
  (all intermediate results are below 2^1024). Sums and matrix products may be evaluated in any order and
  grouping, with or without fused multiply-add.
* What `Print Assumptions` lists: it is executed under each property theorem. Results over `Qc`, `Z`,
  lists and strings are closed under the global context. Results that mention a logarithm or a real
  number (C56, C57, C82, C112, C113, C114, C116 to C121, C129 to C131, C138, C139, C149 to C161, C169, C171, C174 to C178, C180, C183, C184, C185, C186, C187, C188, C189, C190, C191, C192, C193, C194, C195, C196, C19 (Adda-Cooper), and C83 through the decoding it calls) list exactly the axioms of the standard
  library's real numbers: `ClassicalDedekindReals.sig_not_dec`, `ClassicalDedekindReals.sig_forall_dec`,
  `FunctionalExtensionality.functional_extensionality_dep` and `Classical_Prop.classic`.
  `coqchk` additionally names the sealed constants of `Coq.Reals.Rdefinitions.RbaseSymbolsImpl`,
  `Coq.Reals.Rdefinitions.RinvImpl` and `Coq.ssr.ssrunder.Under_rel`, which the standard library seals behind a signature;
  they have definitions and are not axioms of the theory.
* External calls that appear as arguments: the eigendecomposition used by `expected_transitions`,
  `time_correlations` and `time_relaxations` beyond the size; the answer of `networkx.is_aperiodic` and the
  enumeration order of components; the random draws; the convergence test of the HMM fitting loop; the
  normal distribution function of Tauchen's method (any function); the normal distribution function, its quantiles and the integrals of the Adda-Cooper method (C154 to C156, assumed exact; C157 and C158 use the first one); the chi-square distribution function of the statistical tests (any function); the eigenvalues of the transition matrix (C129, C130) and of the adjacency matrix (C112, C131), assumed exact and complete; the optimiser of `closest_reversible` (assumed exact in C127 and C128: what it returns solves the problem handed to it; `C127_attained_partial` shows that this can be met); the signs of the eigenvectors and the Kullback-Leibler divergence in `aggregate` (any functions; the divergence itself is modelled in C171); `nnls` and `lstsq` (assumed to return a solution, for `nnls` with independent support columns, whenever one exists; `L_Nnls.v` proves that the assumptions can be met); the conversion of floats to text
  and back (`repr` and `float`), under the hypothesis that a number survives it and is written as a decimal literal.
* The models of Python's csv, json and ElementTree modules (M_Io.v, M_Json.v, M_Xml.v) are written from their
  documentation and the CPython sources; JSON and XML documents outside the modelled subset (non-ASCII escapes,
  comments, processing instructions, ...) are an error value of the model. A character is one of 256 codes;
  of the encoding of files only is modelled whether a character can be written at all (C143).
* The disk (M_Disk.v): files are keyed by path, without links; opening for writing empties a file; a crash
  leaves the effects before it and some first characters of the text being written. Reordering by the
  operating system and loss of buffered data after a completed save are outside the model.

## 5. What is not modelled

Floating-point rounding outside C149 to C153, C175 to C178, C180 and C183 to C196; the drawing calls of the plots (what is drawn is modelled in C159 to C168 and C174); the optimiser SLSQP inside `closest_reversible`; the computation of eigenvalues and eigenvectors; the choice of the random generator itself.

## 6. Comparison with the project's test data

`/repo/tests/fixtures` records values the real library returned. The scripts in `conformance/` evaluate the
model on the same inputs and compare: 1584 values, 2 differences, both due to rounding (`conformance/README.md`):
an exact comparison of doubles in `lumping_partitions`, and an exact tie in a Viterbi path. This supports
the reading of the code listed in section 4; no theorem depends on it.
