# Formal model of glmmsr in Rocq (Coq 8.16.1)

Source: heogden/glmmsr, read as text from /repo (C++ core in `src/` and
`inst/include/`, R front end in `R/`).  Nothing in /repo is built, run or
changed.

## 1. Layout

    rocq/theories/Model/*.v   executable model, one file per source unit; every
                              definition cites file and lines; no proofs
    rocq/theories/Spec/*.v    specifications, written without the model's helpers
    rocq/theories/Proofs/*.v  lemmas
    rocq/theories/Props/*.v   property theorems only: statement, `exact lemma`,
                              `Print Assumptions`, and an Example showing that the
                              hypotheses are met by a non-trivial case

## 2. Modelling conventions

* C++ `int` is `Z` (or `nat` where it is only a size) without bound, except in
  the files whose property *is* overflow, which use a checked 32-bit arithmetic
  where an out-of-range result is the outcome `UB`.
* `std::vector` is `list`; `.at` out of range is the outcome `Throw`;
  `operator[]`/Eigen access out of range is the outcome `UB`.
* `double` is the real line `R` wherever the property is about the value
  computed in exact arithmetic.  Where a property is about IEEE special values
  (NaN, infinity, float-to-int conversion) a small extended-real type is used.
  Rounding error is not modelled anywhere.
* Eigen's `inverse`, `determinant`, `solve`, the eigenvalue solver and Boost's
  `quantile` are external calls.  They are parameters with their documented
  behaviour as an explicit hypothesis of the theorem (never an axiom).
* R vectors, data frames and sparse matrices are lists/functions; R's partial
  operations return an error outcome.

## 3. Trusted base

1. Coq's kernel (and `coqchk`).
2. The axioms listed by `Print Assumptions` under each theorem.  Discrete
   theorems are closed under the global context.  Theorems over `R` use the
   standard library's reals (`ClassicalDedekindReals.sig_not_dec`,
   `sig_forall_dec`, `FunctionalExtensionality.functional_extensionality_dep`
   and, through Coquelicot, `Classical_Prop.classic`).  No other axiom.
3. The reading of the source into `Model/*.v` (section 5 says which parts).

Assumptions of each theorem, as listed by `Print Assumptions`:

* none (closed under the global context):
  C01_graph_bookkeeping, C02_isComplete_correct, C03_numEdges_refuted,
  C03_reactivation_undercounts, C04_dependence_graph, C05_rooted_tree,
  C06_factors_distributed, C07_running_intersection, C08_counting,
  C08_submatrices_add_up, C09_greedy_elimination, C10_messages_keep_the_product,
  C11_forward_pass_exact, C12_factors_are_functions, C12_independent_of_history,
  C13_choose, C13_grid_size, C14_ranking, C15_parents, C17_no_overflow, C18_every_size,
  C18_isComplete_overflow, C23_products_and_quotients, C24_lookup_of_items,
  C25_right_if_factors_are, C25_scattered_sums, C25_scattered_sums_in_clusters,
  C37_allocation, C38_positions, C40_bijection, C40_rows, C41_no_numbers, C43_checks,
  C43_every_term, C43_none_refuted, C43_two_refuted,
  C53_calibrated_beliefs_are_marginals, C53_constant_after_any_operations,
  C53_margin_after_reset_refuted, C53_margin_exact, C53_margin_refused,
  C54_second_call_ignored, C57_only_failure, C57_zero_refuted, C59_four_refuted,
  C59_smallest_width, C62_coef, C62_no_fixed_refuted, C66_same_tree, C67_gaps_refuted,
  C67_index_in_data_refuted, C67_position_refuted, C67_rows, C67_short_refuted,
  C67_stale_refuted, C72_left_side, C72_one_index_refuted, C79_groups_refuted,
  C79_printed, C83_no_dimension, C83_out_of_bounds, C83_selects, C83_vector, C87_other
* the primitive floats and integers of Coq.Floats and Coq.Numbers.Cyclic.Int63:
  C21_double_range
* `sig_forall_dec`:
  C72_nested_refuted, C72_rows, C79_no_fixed_refuted, C79_slopes_refuted
* `functional_extensionality_dep`:
  C24_no_missing_lookup
* `functional_extensionality_dep`, `sig_forall_dec`:
  C15_hierarchize_safe, C16_interpolation, C32_interval, C32_knots, C34_zero_undefined,
  C41_clash_refuted, C41_linear, C41_vector, C41_vector_refuted, C44_covariance,
  C44_covariance_refuted, C44_draws, C47_normal_derivatives, C49_span, C52_divergence,
  C60_estimate, C60_fails, C60_recycled_refuted, C68_agrees, C68_constant,
  C73_bars_refuted, C73_intercept_refuted, C73_no_sub, C73_split, C76_weights,
  C77_default, C78_accepted, C78_brackets_refuted, C78_form, C81_normal, C82_precision,
  C82_symmetric, C82_values, C88_dots, C88_more, C88_quiet, C88_result, C88_trace
* `classic`, `functional_extensionality_dep`, `sig_forall_dec`:
  C82_positive
* `functional_extensionality_dep`, `sig_forall_dec`, `sig_not_dec`:
  C29_rule, C31_exact, C31_modifier, C36_unchanged, C36_zero_undefined, C49_quadratic,
  C79_infinite, C79_summary
* `classic`, `functional_extensionality_dep`, `sig_forall_dec`, `sig_not_dec`:
  C12_real_numbers, C19_logit_derivatives, C20_probit_derivatives,
  C21_clipped_derivative, C21_log_density_bounded, C21_mean_in_range, C21_mean_kept,
  C26_constructed, C26_derivatives, C27_centre_reflected, C27_centre_refuted,
  C28_everything_multiplied, C28_means_agree, C28_product_iff, C28_product_refuted,
  C29_constant, C29_polynomials, C30_laplace, C30_one_point, C31_laplace, C32_normal,
  C33_nodal, C33_sparse_grid, C34_defined, C34_large_undefined,
  C35_constructor_in_bounds, C35_constructor_refuted, C35_value_after_any_history,
  C36_last_set, C37_fails, C37_scopes, C37_terms, C38_shift_refuted, C39_completed,
  C39_default_refuted, C39_unknown_method, C42_attach, C42_bounds_lost, C42_sum,
  C44_estimate, C44_integrand, C45_attached_refuted, C45_signs,
  C46_gradient_and_hessian, C48_smooth, C50_at_bound_refuted, C50_grid, C50_store,
  C51_clipped_refuted, C51_integrand, C52_clipped_refuted, C52_log_likelihood,
  C52_order, C52_second_order, C54_normals_are_marginals, C55_clusters_and_edges,
  C55_constant, C55_density, C56_likelihood, C56_rejects, C57_lfun, C57_setup,
  C58_error, C58_likelihood, C59_accepted, C61_covariances_refuted, C61_found,
  C61_reported, C63_laplace, C64_two_level, C65_total, C68_laplace, C68_total,
  C69_importance, C69_importance_refuted, C69_second_order, C69_second_order_refuted,
  C69_sequential, C70_importance, C70_second_order, C70_sequential, C71_exact,
  C71_importance, C71_importance_refuted, C71_laplace, C71_reported, C71_second_order,
  C71_two_level, C74_ignored_refuted, C74_predictor, C74_rows,
  C74_same_variable_refuted, C74_unused, C75_all_items, C75_one_item, C76_accepted,
  C76_check, C76_check_refuted, C76_estimates, C76_gaussian_refuted,
  C76_importance_refuted, C76_lfun, C76_options, C76_reported, C77_distance,
  C77_divergence, C77_second_order, C80_factors, C80_last, C80_likelihood, C80_right,
  C81_factor_refuted, C81_file, C84_glmm, C84_lfun, C84_shared_refuted, C85_basis,
  C85_grid, C85_sparse_grid, C86_integral, C86_step, C87_fits, C87_heading, C87_name,
  C89_again, C89_glmm, C89_warning_refuted, C89_warnings
* `classic`, `constructive_indefinite_description`, `functional_extensionality_dep`,
  `sig_forall_dec`, `sig_not_dec`:
  C63_improper_refuted, C65_checked, C66_limit, C69_sequential_refuted,
  C80_likelihood_refuted
* `classic`, `functional_extensionality_dep`, `sig_forall_dec`, `sig_not_dec`, the
  primitive floats and integers of Coq.Floats and Coq.Numbers.Cyclic.Int63:
  C22_only_overflow, C22_overflow_gives_nan
* `add_spec`, `classic`, `eqb_correct`, `eqb_refl`, `functional_extensionality_dep`,
  `land_spec`, `leb_spec`, `lor_spec`, `lsl_spec`, `lsr_spec`, `ltb_spec`, `of_to_Z`,
  `sig_forall_dec`, `sig_not_dec`, `sub_spec`, the primitive floats and integers of
  Coq.Floats and Coq.Numbers.Cyclic.Int63:
  C21_derivative_refuted

## 4. Properties and how each is treated

See properties.jsonl for the statements and MANIFEST.json for status.

| id | modelled | proof |
|----|----------|-------|
| C01 | Graph.cpp as adjacency lists + counters | invariant by induction over operations, refinement to an abstract simple graph |
| C02 | isComplete | double counting of degrees |
| C03 | same | witness history |
| C04 | makeDependenceGraph, findItemsUnion (sort + set_union) | fold invariant |
| C05 | initializeInternal as fuelled recursion; fuel shown sufficient | induction over eliminations with an invariant on hanging edges |
| C06 | populateBelief/populateClusters | cliques are covered, then permutation of the distributed factors |
| C07 | cluster graph | consequence of the elimination invariant |
| C08 | cluster graph, sub-matrix distribution | largest cluster containing the set is the unique one not doubled by an edge |
| C09 | cluster graph | refinement to an abstract elimination relation |
| C10 | passMessage, calibrateInternal, extractBeliefs on denotations | invariant over message sequences |
| C11 | + margin, computeLogNormalizingConstant with an exact one-variable functional | induction over edges using C05–C07 |
| C12 | heap of shared factors with caches; copying of ClusterGraph | cache-consistency invariant over call histories |
| C13 | counting.cpp | Pascal recurrences; enumeration of the grid |
| C14 | Point.cpp | rank function by induction; explicit predecessor |
| C15 | hierarchize loops | parent enumeration |
| C16 | SparseGrid.cpp | unidirectional principle on down-closed grids |
| C17 | counting.cpp/Point.cpp on checked ints | bounds for admitted sizes |
| C18 | isComplete on checked ints | arithmetic |
| C19, C20 | Family/Link/Binomial formulas over R | Coquelicot derivatives |
| C21 | checkMean | order reasoning, witness |
| C22 | same formulas over extended reals with NaN | computation |
| C23–C25 | MixedContinuousBelief with item lists | gather/scatter lemmas, induction over operation lists |
| C26, C27 | IntegratedFunction, QuadratureRule | Coquelicot derivatives; 2x2 witness |
| C28 | MultiNormal over a field (mathcomp matrices) | block-matrix algebra; witness |
| C29, C30 | QuadratureRule | operator identity for Hermite moments, spectral decomposition |
| C31 | Quadratic, SparseStore, SparseGridTransform | matrix algebra + C16 |
| C32–C34 | BasisLevel | induction over knots; floor arithmetic; NaN conversion |
| C35 | GLMMBelief | cache invariant; bounds |
| C36 | accessParameters | state machine |
| C37, C38 | splitframe.R | induction over cliques; witness |
| C39 | control.R | case analysis on association lists |
| C40 | multi_to_flat | mixed radix induction |
| C41 | modify_subexpr + frame arithmetic | induction over expressions |
| C42 | concatenate_frames | block algebra; witness |
| C43 | match_subform_subexpr | truth-table of R's `any` |
| C44 | IS.R | Gaussian integral (parameter trick); change of variables for triangular maps by iterated integrals; matrix identity; witness |
| C45 | linear predictor | symmetry |
| C46 | GLMMBelief | chain rule on C19/C20 |
| C47 | MultiNormal evaluate | Coquelicot derivatives |
| C48 | BasisLevel | smoothness of the nodal splines |
| C49 | SparseGrid, SparseStore | C16 and linearity |
| C50 | SparseGrid, SparseStore derivatives | Coquelicot derivatives; witness |
| C51 | IS.R against Family.cpp | algebra; witness |
| C52 | hol.R, laplace.R, Family.cpp derivatives | towers of partial derivatives of sums of functions of linear forms; interchange of sums; Gaussian integral for the range of the probit mean; witness |
| C53 | calibrate, margin, setNormalApprox, passMessage | invariant over all operations; induction over the edges forwards, then backwards; the separators link successive marginals; witness for the stale flag |
| C54 | setNormalApprox, passMessage on normals, multiplySubset, computeMarginal | quadratic forms: a marginal is the minimum over the other items, a message keeps the sum of forms; invariant forwards (a cluster holds the minimum over the eliminated items), then backwards; variance by inverting the form |
| C55 | initializeNormalizer, all ways to make a MultiNormal | Schur complements: the innermost integral is a one-dimensional Gaussian one; the determinant is the product of the pivots, by row operations |
| C56 | find_lfun_SR and lfun over beliefs that are GLMM factors, normal factors or stored integrals | C37 (factors add up), C35 (values of factors), C11 (forward pass); constants come out of iterated integrals |
| C57 | computeLogNormalizingConstant, find_lfun_SR | invariant: well-formed beliefs with means and derivatives of the right sizes; every step returns or throws RuntimeError |
| C58 | computeLogNormalizingConstant, passMessage, find_lfun_SR | the forward pass up to the error of k integrations; errors are translation invariant and pass through LI |
| C59 | initializeInternal, width, find_lfun_SR | a graph with a junction tree of width w has an item with fewer than w neighbours; eliminating an item with two neighbours renames it to one of them in all bags, which keeps the junction tree; refutation by computation |
| C60 | optimize_glmm | the contract of optim, at the point it returns neither the penalty nor Inf can be the value, since d0 + 100 > d0; recycling of vectors of equal length is addition |
| C61 | optimize_glmm, glmm, summary.glmmFit | Hessians under coordinatewise affine maps with slopes 1 or -1, and their uniqueness; a quartic valley with maxima at theta = 1 and -1 |
| C62 | coef, vcov | selections by a:b |
| C63 | sequential_lfun: find_lfun_SR with the actual normals, integrals, stored functions and basis | one step at the mean contributes -1/2 log of a pivot (C30, C31); the pivots along the elimination are those of Gaussian elimination on Q, whose product is the determinant |
| C64 | sequential_lfun | clusters of one item, since no two items are adjacent; C29 for the weights |
| C65 | sequential_lfun, and the same with integrals guarded by good_call | C57 with the facts about derivatives left out, and C16: building the grid always succeeds; for the guard, C57 with sizes of normals and of stored derivatives as invariants |
| C66 | build at two signatures; sequential_lfun with storing guarded by small_grid | relation between runs of initializeInternal at two signatures (same items and edges, beliefs unrelated); number of grid points in dimension d at most (d+1)^(2 nSL) from C13 and binomials; C57 with a bound on cluster sizes |
| C67 | find_indices_subform, find_index_i, find_indices, find_vars_with_index, find_dim_in_dir, flatten_vars | induction over expressions (which names are found), loop invariant over the directions, C40 for the rows; computed cases for the faults |
| C68 | BasisLevel with arbitrary results of undefined conversions; find_lfun_SR at level 0 | computation of the one level; C57 and C63 for any nodal basis |
| C69 | find_lfun_SR, find_log_integrand, find_epsilon_1 on frames with offsets | C56, C44 and C52, densities with zero offsets; counterexamples by computation |
| C70 | find_factorization_terms with a two-column response; evaluation of its factors | sizes of arrays; every observation is in one factor (C37) |
| C71 | report_estim, lfun_SR, find_epsilon_1, lfun_IS at parameters that differ by signs of random effects | signs of random effects (C45); C56, C63 and C64 on both sides; the Gauss-Hermite rule is symmetric by uniqueness of interpolation; uniqueness of the Cholesky factor; counterexample by computation |
| C72 | find_subvar, drop_index, matrix_indexing, flatten_formula; evaluation of the flat right side in the data of parse_sub | induction on expressions; places of tuples in expand.grid (C40); counterexamples by computation |
| C73 | split_formula with terms(), drop.terms() and fixFormulaObject | induction on expressions: reading what was printed; any text with a bar is read as a bar |
| C74 | parse_sub and find_modfr_glmm composed from the models of C41, C42, C43, C67, C72, C73; frames made by lme4 and sparse() arbitrary | C41 for each subformula, induction on the list of subformulas for attach_subframes (C42), pigeonhole for the matching; counterexamples by computation |
| C75 | IntegratedFunction, QuadratureRule, belief_logNormalizingConstant (Margin.v) | moments of the rule: those of the q x q Jacobi matrix are at most those of the infinite one (paths), so the rule is below exp(a^2/4) on exp(a t), strictly for a not 0; quadratic form of the Jacobi matrix for the nodes; completing the square and induction on the items |
| C76 | glmm composed from the models of C39, C74, C60, C44, C52, C57; check_weights, has_re, parse_formula, find_lfun_glmm (Glmm.v); other packages are a record of arbitrary functions | inversion of the composition; C60 and C71 for the estimates; a loglikelihood that always stops has no finite value where optim starts; counterexamples with an optimizer that stays where it is |
| C77 | find_laplace_divergence with second derivatives (Divergence.v) | expectations of quadratic forms; completing the square; induction over Schur complements for the difference of trace and log determinants |
| C78 | parse_sub, modify_subexpr, extract_to_flatten + frame arithmetic (Subexpr.v) | induction over linear expressions, and over all expressions for the form |
| C79 | print.glmmFit, print.summaryGlmmFit (Report.v) | lists; size of a triangle |
| C80 | splitframe.R, find_lfun_SR with observations without random effects | the allocation finds the first clique that fits; refinement to another frame; witness |
| C81 | lmodfr_to_oneline, save_factorization_to_file, save_normal: the characters of the files | a separate reader of lines and words; reading what was written, by composition of readers |
| C82 | compute_normal_approx: products of lists of rows | entries of a factorized matrix and a permutation of indices; sums in the order of the permutation |
| C83 | subset_dim: the pasted text, split at its commas, and R's subscripts by offsets in the data | elements of an array found in the rows of expand.grid; induction on the number of commas and on the dimensions |
| C84 | glmm and find_lfun_glmm in state-passing form, environment of lme4 and order of the calls as in the code; optimizers as trees of questions | relation between environments and functions of the parameters; simulation with an invariant, induction on the trees |
| C85 | basis levels with knots, grid numbers and spline coefficients as computed; grid, interpolation and both derivatives | signs of vectors and of matrices; cubic splines with these end conditions are unique, so mirror images of splines are splines; coefficients and derivatives are unique |
| C86 | integral over one argument with its derivatives, margin of the normal, quadratic modifier, transformed grid, integrate_and_store | signs of normals, positive definite square roots (unique), symmetric quadrature rules; every operation on vectors and matrices commutes with changes of sign; the quadrature sum is invariant because the Gauss-Hermite rule is symmetric |
| C87 | find_approximation_name, print_subformula, heading of both print methods, with find_control_with_defaults and glmm | the words around a number, the option used, texts of one word and of one line; cutting equal texts at the first blank or end of line |
| C88 | optimize_glmm with its counter, flag and output | the points an asking algorithm reaches with the used loglikelihood, a line for each; bounds for the dots by an invariant on the counter |
| C89 | find_control_with_defaults, glmm and find_lfun_glmm, called again with the list kept with a fit | the same list, fit and loglikelihood; names of a completed list, from which the warnings follow |

## 5. Modelled / not modelled

"Modelled" means: there is a Gallina function for it in `Model/`, with the lines it
stands for; the simplifications are in its comment.

| source | modelled (file in Model/) | not modelled |
|--------|---------------------------|--------------|
| src/Graph.cpp, Graph.h, dependenceGraph.h | everything (Graph.v); isComplete again on 32-bit ints (IntCounting.v) | Boost's own code; memory |
| src/itemsHelper.cpp, BeliefBase.cpp | everything (Items.v, ClusterGraph.v) | |
| src/ClusterGraph.cpp | constructors, initializeInternal, populate*, passMessage, calibrate*, setNormalApprox, margin, extractBeliefs, width, computeLogNormalizingConstant (ClusterGraph.v; with shared state: Stateful.v) | nMessages, complexity (only used for printing), RcppR6 glue; order of Boost's `tie` iteration is insertion order |
| src/MixedContinuousBelief.cpp | everything over an arbitrary signature of factors (Mixed.v); integrate/margin in exact arithmetic (Margin.v) | |
| src/NormalBelief.cpp, ContinuousBelief.cpp, SparseBelief.cpp | as operations of the signature of Mixed.v, instantiated in Stateful.v | setItems, initializeGivenItems |
| src/matrixHelper.cpp, subsetEigen.cpp | everything (Mixed.v, Vectors.v) | |
| src/MultiNormal.cpp | constructors, setters, multiplySubset, divideSubset, evaluate and derivatives, computeMarginal, integrate (MultiNormal.v); as the normals of the cluster graph (NormalSig.v) | isProper only in Mixed.v's signature; Eigen's inverse, determinant and solvers: parameters |
| src/IntegratedFunction.cpp, QuadratureRule.cpp | everything (IntegratedFunction.v, Quadrature.v) | Eigen's eigenvalue solver: parameter |
| src/Quadratic.cpp, SparseGridTransform.cpp, SparseStore.cpp | everything (SparseStore.v) | the function to be stored may not throw |
| src/Basis.cpp, BasisLevel.cpp, Point.cpp, SparseGrid.cpp, counting.cpp | everything (BasisLevel.v, Point.v, SparseGrid.v, Counting.v); ints again with overflow (IntCounting.v); BasisLevel again with arbitrary results of undefined conversions (AnyConversion.v); the store of computed coefficients of a level is filled once | rounding; shifts beyond 30 bits |
| src/Family.cpp, FamilyGivenMean.cpp, Binomial.cpp, Link.cpp, LogitLink.cpp, ProbitLink.cpp | everything, over R and over IEEE doubles (Family.v) | C library and Boost functions: parameters over doubles |
| src/GLMMBelief.cpp | everything, with its cache (GLMM.v) | |
| src/Parameters.cpp, accessParameters.cpp | everything (Params.v) | RcppR6 glue |
| src/RcppExports.cpp, RcppR6.cpp, MixedContinuousBeliefVector.cpp | | all (generated glue, push_back) |
| R/IS.R | everything (IS.v) | rnorm: an arbitrary matrix; chol, solve, determinant: parameters; families other than binomial: parameters |
| R/hol.R, R/laplace.R | find_M, find_epsilon_1, find_laplace_divergence (default form), check_if_order_implemented, the function made by find_lfun_Laplace (HOL.v), the branch use_second_derivatives (Divergence.v) | numDeriv: gradient and second derivatives are arguments |
| R/splitframe.R | find_active, add_obs*, find_local_term, find_factorization_terms (SplitFrame.v; responses with two columns: TwoColumn.v; offsets: Offset.v), lmodfr_to_oneline, save_factorization_to_file, save_normal (SaveFile.v) | files for responses with two columns; opening files |
| R/control.R | find_control_with_defaults (Control.v) | set_lme4_control |
| R/indexing.R | multi_to_flat, flatten_vars (Indexing.v), find_dim_sub (Subexpr.v), find_indices, find_vars_with_index, find_indices_subform, find_index_i (FindIndices.v), matrix_indexing, flatten_formula (Flatten.v) | - |
| R/modify_subexpr.R | everything (Subexpr.v) | R's parser |
| R/model_frames.R | arithmetic on frames, `[`, concatenate_*, attach_subframes (Subexpr.v, Frames.v), the conditions in parse_formula (Glmm.v) | glFormula, glm and model.matrix in parse_formula; parse_subformula (calls into lme4 that make frames) |
| R/subformula.R | find_vars, add_subexpr, match_subform_subexpr, the evaluation in parse_sub (Subexpr.v), drop_index, find_subvar, the data of the subformula in parse_sub (Flatten.v), find_subexpr, find_var_rhs, split_formula (SplitFormula.v), parse_sub, find_modfr_glmm (FindModfr.v) | whether `subformula` is a list, its presence in the result |
| R/fit.R | glmm (Glmm.v), what is reported for estimates (Frames.v, Fit.v) | the texts of warnings, `lme4_control`, `offset`, `verbose` |
| R/optimization.R | optimize_glmm (Fit.v), with its output (Progress.v) | optim, solve: arguments; sprintf; the warnings |
| R/glmmFit.R | summary, coef and vcov (Fit.v); the tables of print.glmmFit and print.summaryGlmmFit (Report.v); find_approximation_name, print_subformula and the heading (Heading.v) | rounding and layout of tables; how R writes numbers and formulas |
| R/loglikelihood.R | compute_normal_approx (NormalApprox.v); find_lfun_SR, where the result of compute_normal_approx is an argument (LfunSR.v; with all parts put together, Sequential.v); find_lfun_glmm, find_lfun_glmm_internal, find_lfun_AGQ (Glmm.v; with the environment of the deviance function: Environment.v) | lme4 deviance functions |
| R/utility.R | check_modfr_SR (LfunSR.v), is_canonical (HOL.v), find_dim_in_dir (FindIndices.v), fixFormulaObject (SplitFormula.v), check_weights, has_re (Glmm.v), subset_dim (SubsetDim.v; unused in the package) | find_pairs (unused) |

What the theorems assume of code outside the repository, always as hypotheses:

* Eigen: `inverse`, `.solve` and LDLT return an inverse or a solution if there is
  one; square roots of matrices are square roots; the symmetric eigenvalue solver
  returns orthonormal eigenvectors and their eigenvalues.
* R: optim with method BFGS does not return a point where the function is larger than
  where it started, or not finite (C60); its Hessian and `solve` are exact (C61).
* Matrix: `solve(H, B)` solves the systems H X = B of C52.
* lme4: what the deviance function gives and leaves in its environment depends only on
  its argument, if nothing but evaluations have changed it (C84).
* lme4 and Matrix: `expand(PR$L())` gives a factor L and a permutation matrix P with
  L L^T = P A P^T (C82).
* Boost: cdf and pdf of the standard normal (over R they are the real functions).
* R: matrix products, recycling and array semantics as written in Subexpr.v and
  IS.v; `chol`, `solve`, `determinant` (C44); `binomial()$linkinv` and
  `$dev.resids` of package stats (C51); sparse matrices of Matrix are lists of
  columns of (row, value) pairs whose structure is kept by `@x[] <-`; terms(),
  drop.terms(), which pastes labels together with + and parses the text again, and the
  precedence of operators in the parser (C73).
* R: as.character() and cat() write a number as one word that reads back as a rounded
  number, and whole numbers below 10^15 and 10^7 without rounding (C81, C87).

Faults of the code that the theorems document (each is a `_refuted` theorem or
part of one):

* isComplete overflows from 46342 vertices (C18); a vertex reactivated by addEdge
  makes numEdges wrong (C03).
* GLMMBelief's constructor reads out of bounds for correlated random effects (C35).
* Clipped means leave nonzero derivatives (C21); large linear predictors give NaN
  in doubles (C22).
* The centre of IntegratedFunction is reflected (C27), so that integrals of normal
  beliefs of dependent items are too small (C75); multiplySubset and
  divideSubset are wrong for unequal means (C28).
* Sequential reduction, importance sampling and the second-order Laplace approximation
  ignore offsets (C69); responses with two columns lead to undefined behaviour or errors
  (C70).
* Level 0 parameters and large levels are undefined (C34, C36).
* Options: defaults are wrong for some methods (C39); the list kept with a fit causes a
  warning if it is used again (C89).
* splitframe shifts the items (C38); the loglikelihood is then that of another model (C80).
* A factorization with a factor as response is written to files with TRUE and FALSE instead of numbers (C81).
* Fits with several components in a random term, several terms of a group or no fixed effects are printed wrongly or not at all (C79).
* Parentheses around a substituted variable and a sign before it are refused (C78).
* Vectors as multipliers with more than one random effect, clashing names in substituted
  expressions (C41); bounds lost in attached
  frames (C42) and its consequence for reported signs (C45); checks on Sub() terms
  (C43).
* Importance sampling draws with the wrong covariance, though the weights are right
  (C44); IS and SR differ where means are clipped (C51).
* Derivatives of the sparse store at its bound (C50).
* The second-order Laplace term is wrong where means are clipped (C52).
* setNormalApprox on a calibrated cluster graph leaves the calibrated flag set; the next margin is not a marginal (C53).
* A second setNormalApprox does not change the normal approximations of the clusters, since the first one fixes them (C54).
* isProper rejects the value zero, since std::isnormal(0) is false (C57).
* A previous fit with the wrong number of estimates is recycled (C60); covariances keep the sign of estimates whose sign is changed (C61); coef and vcov are wrong without fixed effects (C62).
* MultiNormal::isProper takes a normal whose log normalizing constant is zero for improper, and IntegratedFunction then uses the identity for its precision (C63).
* Numeric indices with gaps, indices that are in the data, and covariates indexed at another position get wrong rows or errors (C67).
* The importance sampling loglikelihood is not the same at reported variance parameters as at those found by the optimizer, if a sign was changed (C71).
* Covariates with several subscripts are not evaluated row by row if they are subscripts of such covariates, or if the subformula has one index (C72).
* A formula with a Sub() term loses its intercept and offsets; with random effects and another term outside Sub() it loses all fixed effects outside (C73).
* Without Sub() terms subformulas are ignored; two subformulas of one variable give its Sub() term twice; a subformula without Sub() term is an error where a warning is intended (C74).

## 6. Tests against wrong programs

`seeded/LOG.jsonl` has one line for each wrong program tried. A definition of `Model/` was
edited in a scratch copy, and the copy was rebuilt.

* `theorems_failed` lists the theorems that are no longer proved after the edit: those whose
  proof, or a lemma it uses, does not check any more. This is weaker than each statement being
  false of the edited program. A proof script can also stop for a reason of its own, for
  instance because it mentions a term that the edit has changed, and a theorem is listed
  whenever a lemma it depends on fails, whether or not its own statement is affected.
* So an entry with theorems shows that the edit did not pass unnoticed. It does not by itself
  show which of the listed statements became false. Only where the note says so was the reason
  of the failure looked at.
* An empty `theorems_failed` means that the edit was not noticed, or that the edited file did
  not compile. The note says which, and what was done.
