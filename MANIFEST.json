{
 "claims": [
  {
   "property": "C01",
   "status": "proved",
   "theorems": [
    "C01_graph_bookkeeping"
   ],
   "note": "Refinement of adjacency lists and counters to an abstract simple graph, over all prefixes of all disciplined histories."
  },
  {
   "property": "C02",
   "status": "proved",
   "theorems": [
    "C02_isComplete_correct"
   ],
   "note": "Counters as unbounded integers; C18 treats the 32-bit product."
  },
  {
   "property": "C03",
   "status": "proved",
   "theorems": [
    "C03_reactivation_undercounts",
    "C03_numEdges_refuted"
   ],
   "note": "General under-count formula and a concrete history."
  },
  {
   "property": "C04",
   "status": "proved",
   "theorems": [
    "C04_dependence_graph"
   ],
   "note": ""
  },
  {
   "property": "C05",
   "status": "proved",
   "theorems": [
    "C05_rooted_tree"
   ],
   "note": "For every signature of factors."
  },
  {
   "property": "C06",
   "status": "proved",
   "theorems": [
    "C06_factors_distributed"
   ],
   "note": ""
  },
  {
   "property": "C07",
   "status": "proved",
   "theorems": [
    "C07_running_intersection"
   ],
   "note": "Stated for sets of items; single items are the special case."
  },
  {
   "property": "C08",
   "status": "proved",
   "theorems": [
    "C08_counting",
    "C08_submatrices_add_up"
   ],
   "note": "Matrix form holds for arbitrary entries in an abelian group, hence for the quadratic forms."
  },
  {
   "property": "C09",
   "status": "proved",
   "theorems": [
    "C09_greedy_elimination"
   ],
   "note": ""
  },
  {
   "property": "C10",
   "status": "proved",
   "theorems": [
    "C10_messages_keep_the_product"
   ],
   "note": "Any sequence of messages in either direction, setNormalApprox, calibrate and margin calls; any integration operator whose result is on the requested items."
  },
  {
   "property": "C11",
   "status": "proved",
   "theorems": [
    "C11_forward_pass_exact"
   ],
   "note": "Exactness is the hypothesis exact_integral on the signature; the logsum signature meets it. Conditional on the run not throwing."
  },
  {
   "property": "C23",
   "status": "proved",
   "theorems": [
    "C23_products_and_quotients"
   ],
   "note": "Any expression built from products, quotients, setNormalApprox and fixing; items in any order."
  },
  {
   "property": "C24",
   "status": "proved",
   "theorems": [
    "C24_lookup_of_items",
    "C24_no_missing_lookup"
   ],
   "note": "The second theorem compares the program with one that fails on a missing item: same results on every run."
  },
  {
   "property": "C25",
   "status": "proved",
   "theorems": [
    "C25_scattered_sums",
    "C25_scattered_sums_in_clusters",
    "C25_right_if_factors_are"
   ],
   "note": ""
  },
  {
   "property": "C13",
   "status": "proved",
   "theorems": [
    "C13_choose",
    "C13_grid_size"
   ],
   "note": "Holds for d=0 too. Unbounded integers; C17 treats 32-bit."
  },
  {
   "property": "C14",
   "status": "proved",
   "theorems": [
    "C14_ranking"
   ],
   "note": ""
  },
  {
   "property": "C15",
   "status": "proved",
   "theorems": [
    "C15_parents",
    "C15_hierarchize_safe"
   ],
   "note": ""
  },
  {
   "property": "C16",
   "status": "proved",
   "theorems": [
    "C16_interpolation"
   ],
   "note": "Over the reals, for every nodal basis and every dimension including 0; the hypothesis on level 0 is not needed."
  },
  {
   "property": "C17",
   "status": "proved",
   "theorems": [
    "C17_no_overflow"
   ],
   "note": "Analytic bound: the number of points is at most width^(2 nSL). Widths are themselves ints."
  },
  {
   "property": "C18",
   "status": "proved",
   "theorems": [
    "C18_isComplete_overflow",
    "C18_every_size"
   ],
   "note": ""
  },
  {
   "property": "C19",
   "status": "proved",
   "theorems": [
    "C19_logit_derivatives"
   ],
   "note": "Exact real arithmetic; std::exp, std::log, std::pow are the real functions. The weights need not be non-negative; only the coordinate differentiated must be unclipped."
  },
  {
   "property": "C20",
   "status": "proved",
   "theorems": [
    "C20_probit_derivatives"
   ],
   "note": "Exact real arithmetic; boost cdf/pdf of the standard normal are taken to be the exact functions (Phi with Phi(0)=1/2 and derivative the normal density)."
  },
  {
   "property": "C21",
   "status": "proved",
   "theorems": [
    "C21_mean_in_range",
    "C21_mean_kept",
    "C21_log_density_bounded",
    "C21_clipped_derivative",
    "C21_derivative_refuted",
    "C21_double_range"
   ],
   "note": "The claim that the code violates (the reported derivative where the clip is active) is characterised for all inputs and refuted by a witness. C21_double_range is about IEEE doubles."
  },
  {
   "property": "C22",
   "status": "proved",
   "theorems": [
    "C22_overflow_gives_nan",
    "C22_only_overflow"
   ],
   "note": "IEEE binary64 through the primitive floats of Coq; exp, log and pow of the C library are arbitrary functions with log(NaN)=NaN, and exp non-negative for the converse."
  },
  {
   "property": "C12",
   "status": "proved",
   "theorems": [
    "C12_independent_of_history",
    "C12_factors_are_functions",
    "C12_real_numbers"
   ],
   "note": "The GLMM objects behind shared pointers are an explicit heap; the program is a state monad over it. The construction of stored beliefs is an arbitrary program of callbacks. For numbers in which == implies equality (real numbers; in doubles all but signed zeros)."
  },
  {
   "property": "C35",
   "status": "proved",
   "theorems": [
    "C35_value_after_any_history",
    "C35_constructor_in_bounds",
    "C35_constructor_refuted"
   ],
   "note": "Exact real arithmetic. The out-of-bounds read of the constructor is characterised for all data and witnessed by correlated random effects."
  },
  {
   "property": "C46",
   "status": "proved",
   "theorems": [
    "C46_gradient_and_hessian"
   ],
   "note": "Exact real arithmetic, both links, all coordinates."
  },
  {
   "property": "C26",
   "status": "proved",
   "theorems": [
    "C26_derivatives",
    "C26_constructed"
   ],
   "note": "Exact real arithmetic; gradient in the sense of Frechet. Quadrature weights non-negative and not all zero."
  },
  {
   "property": "C27",
   "status": "proved",
   "theorems": [
    "C27_centre_reflected",
    "C27_centre_refuted"
   ],
   "note": "Exact real arithmetic; the inverse of Eigen is assumed right on the one matrix it is applied to. The sign error is characterised and a witness given."
  },
  {
   "property": "C28",
   "status": "proved",
   "theorems": [
    "C28_product_iff",
    "C28_means_agree",
    "C28_everything_multiplied",
    "C28_product_refuted"
   ],
   "note": "Exact real arithmetic; Eigen inverse assumed right on the matrix it is applied to. Also for division."
  },
  {
   "property": "C47",
   "status": "proved",
   "theorems": [
    "C47_normal_derivatives"
   ],
   "note": "Exact real arithmetic."
  },
  {
   "property": "C29",
   "status": "proved",
   "theorems": [
    "C29_polynomials",
    "C29_rule",
    "C29_constant"
   ],
   "note": "Exact real arithmetic; Eigen::SelfAdjointEigenSolver is assumed to give an orthonormal eigendecomposition of the n x n Jacobi matrix. The Gaussian integral and all its moments are proved, not assumed."
  },
  {
   "property": "C30",
   "status": "proved",
   "theorems": [
    "C30_one_point",
    "C30_laplace"
   ],
   "note": "Exact real arithmetic; Eigen inverse assumed right on smaller matrices, the stored function assumed right at the mean of its normal approximation, MultiNormal::isProper assumed true for the marginals met. The determinant is by Gaussian elimination. That nSL = 0 asks for one point is in C39."
  },
  {
   "property": "C32",
   "status": "proved",
   "theorems": [
    "C32_normal",
    "C32_knots",
    "C32_interval"
   ],
   "note": "Exact real arithmetic for quantiles and bandwidths; conversions to int and unsigned are modelled with their ranges."
  },
  {
   "property": "C33",
   "status": "proved",
   "theorems": [
    "C33_nodal",
    "C33_sparse_grid"
   ],
   "note": "Exact real arithmetic; Eigen inverse and colPivHouseholderQr assumed right wherever an inverse or a solution exists (solvability of the spline system is proved); boost quantiles assumed to be those of the standard normal distribution."
  },
  {
   "property": "C34",
   "status": "proved",
   "theorems": [
    "C34_zero_undefined",
    "C34_defined",
    "C34_large_undefined"
   ],
   "note": "Exact real arithmetic. levelMax = 26 is left open. Undefined behaviour is the conversion of an unrepresentable value to int."
  },
  {
   "property": "C48",
   "status": "proved",
   "theorems": [
    "C48_smooth"
   ],
   "note": "Exact real arithmetic; assumptions on Eigen as for C33."
  },
  {
   "property": "C31",
   "status": "proved",
   "theorems": [
    "C31_modifier",
    "C31_exact",
    "C31_laplace"
   ],
   "note": "Exact real arithmetic; colPivHouseholderQr assumed to find a solution if there is one, operatorSqrt and operatorInverseSqrt of SelfAdjointEigenSolver assumed to be inverse matrices (C31_exact) or square matrices (C31_laplace). In C31_laplace undefined reads of the store count as zeros."
  },
  {
   "property": "C49",
   "status": "proved",
   "theorems": [
    "C49_span",
    "C49_quadratic"
   ],
   "note": "Exact real arithmetic; Eigen as for C31, with operatorSqrt a symmetric square root."
  },
  {
   "property": "C50",
   "status": "proved",
   "theorems": [
    "C50_grid",
    "C50_store",
    "C50_at_bound_refuted"
   ],
   "note": "Exact arithmetic. C50_store needs the domain of the basis to be open, which it is for the basis of the code (C50_case). C50_at_bound_refuted is the place where the bound makes the vector returned differ from a gradient."
  },
  {
   "property": "C36",
   "status": "proved",
   "theorems": [
    "C36_last_set",
    "C36_unchanged",
    "C36_zero_undefined"
   ],
   "note": "Levels 26 and more are left open (see C34). The eigenvalue solver is assumed to return as many eigenvalues as the matrix has rows; other assumptions as for C33."
  },
  {
   "property": "C37",
   "status": "proved",
   "theorems": [
    "C37_allocation",
    "C37_terms",
    "C37_scopes",
    "C37_fails"
   ],
   "note": "Sparse products are assumed to store every structurally non-zero place, rows increasing. Responses with several columns are not modelled. Exact real arithmetic for the likelihood."
  },
  {
   "property": "C38",
   "status": "proved",
   "theorems": [
    "C38_positions",
    "C38_shift_refuted"
   ],
   "note": "The refutation is the counterexample of the statement; the positive part is C38_positions together with C37_terms."
  },
  {
   "property": "C39",
   "status": "proved",
   "theorems": [
    "C39_completed",
    "C39_unknown_method",
    "C39_default_refuted"
   ],
   "note": "Options are numbers (TRUE and FALSE as 1 and 0) with non-empty names."
  },
  {
   "property": "C40",
   "status": "proved",
   "theorems": [
    "C40_rows",
    "C40_bijection"
   ],
   "note": "The order of expand.grid is a specification."
  },
  {
   "property": "C41",
   "status": "proved",
   "theorems": [
    "C41_linear",
    "C41_vector",
    "C41_vector_refuted",
    "C41_clash_refuted",
    "C41_no_numbers"
   ],
   "note": "Functions other than the five operators are an arbitrary function of their evaluated arguments. Exact real arithmetic; recycling of vectors and array subscripts as in R are part of the model."
  },
  {
   "property": "C43",
   "status": "proved",
   "theorems": [
    "C43_checks",
    "C43_none_refuted",
    "C43_every_term",
    "C43_two_refuted"
   ],
   "note": ""
  },
  {
   "property": "C42",
   "status": "proved",
   "theorems": [
    "C42_sum",
    "C42_attach",
    "C42_bounds_lost"
   ],
   "note": "Column names and the components Gp, flist, cnms and Ztlist of reTrms are not modelled. Exact real arithmetic."
  },
  {
   "property": "C45",
   "status": "proved",
   "theorems": [
    "C45_signs",
    "C45_attached_refuted"
   ],
   "note": "The likelihood is the integral over every cube centred at 0, for an arbitrary density of the observations given their linear predictors. For frames with subformulas the claim fails."
  },
  {
   "property": "C44",
   "status": "proved",
   "theorems": [
    "C44_integrand",
    "C44_estimate",
    "C44_draws",
    "C44_covariance",
    "C44_covariance_refuted"
   ],
   "note": "Exact real arithmetic. chol, solve and determinant are parameters assumed to return a Cholesky factor, an inverse and the determinant for the precision in question; the random numbers are an arbitrary matrix. Integrals are iterated improper Riemann integrals."
  },
  {
   "property": "C51",
   "status": "proved",
   "theorems": [
    "C51_integrand",
    "C51_clipped_refuted"
   ],
   "note": "binomial()$linkinv and dev.resids of the R package stats are modelled in exact arithmetic; for probit the linear predictors are supposed to be within the thresholds of linkinv."
  },
  {
   "property": "C52",
   "status": "proved",
   "theorems": [
    "C52_second_order",
    "C52_log_likelihood",
    "C52_order",
    "C52_clipped_refuted",
    "C52_divergence"
   ],
   "note": "Exact real arithmetic. Matrix::solve is a parameter assumed to solve the systems in question; the mode, the precision and the deviance of order 1 come from lme4 and are arguments; the gradient that numDeriv finds is an argument."
  },
  {
   "property": "C53",
   "status": "proved",
   "theorems": [
    "C53_calibrated_beliefs_are_marginals",
    "C53_margin_exact",
    "C53_margin_refused",
    "C53_constant_after_any_operations",
    "C53_margin_after_reset_refuted"
   ],
   "note": "The one-variable integration is a parameter assumed exact (as in C11) with interchangeable order of integration; the maximum over two points and sums of exponentials over any nodes satisfy this."
  },
  {
   "property": "C54",
   "status": "proved",
   "theorems": [
    "C54_normals_are_marginals",
    "C54_second_call_ignored"
   ],
   "note": "Exact real arithmetic; the inverse is a parameter assumed to invert every matrix that has an inverse. The theorem is about runs that return (isProper, i.e. std::isnormal of values at the mean, may make passMessage throw)."
  },
  {
   "property": "C55",
   "status": "proved",
   "theorems": [
    "C55_density",
    "C55_clusters_and_edges",
    "C55_constant"
   ],
   "note": "Exact real arithmetic; the decimal constant in initializeNormalizer is taken as written, which is where delta comes from. determinant is a parameter with the two laws of Spec/DensitySpec.v."
  },
  {
   "property": "C56",
   "status": "proved",
   "theorems": [
    "C56_likelihood",
    "C56_rejects"
   ],
   "note": "Exact real arithmetic. inverse, determinant, std::isnormal, the stored beliefs and the one-variable integration are parameters; the value of the integral is asserted under the hypotheses exact_integral and fubini (as in C11), which sums over nodes satisfy. compute_normal_approx, which asks lme4, is an arbitrary function. n_random >= 1 and the indices in Lind are between 1 and n_random, as lme4 makes them."
  },
  {
   "property": "C57",
   "status": "proved",
   "theorems": [
    "C57_only_failure",
    "C57_lfun",
    "C57_setup",
    "C57_zero_refuted"
   ],
   "note": "That integrating and storing succeeds for functions that can be evaluated is a hypothesis (integrates, Spec/TotalSpec.v); C34 and C50 say when the code for it is defined."
  },
  {
   "property": "C58",
   "status": "proved",
   "theorems": [
    "C58_error",
    "C58_likelihood"
   ],
   "note": "Exact real arithmetic apart from the integrals: their errors are only assumed to be bounded wherever an integral is stored (stores_within); an integrator can throw where it is not accurate."
  },
  {
   "property": "C59",
   "status": "proved",
   "theorems": [
    "C59_smallest_width",
    "C59_four_refuted",
    "C59_accepted"
   ],
   "note": "A junction tree is a list of bags with the running intersection property. C59_accepted is for one variance parameter, as C57_setup."
  },
  {
   "property": "C60",
   "status": "proved",
   "theorems": [
    "C60_estimate",
    "C60_fails",
    "C60_recycled_refuted"
   ],
   "note": "optim is any function with the contract descends (Spec/FitSpec.v)."
  },
  {
   "property": "C61",
   "status": "proved",
   "theorems": [
    "C61_found",
    "C61_reported",
    "C61_covariances_refuted"
   ],
   "note": "Exact arithmetic; the Hessian returned by optim and its inverse are exact by hypothesis. The counterexample is a loglikelihood function given in closed form, not one of a model."
  },
  {
   "property": "C62",
   "status": "proved",
   "theorems": [
    "C62_coef",
    "C62_no_fixed_refuted"
   ],
   "note": ""
  },
  {
   "property": "C63",
   "status": "proved",
   "theorems": [
    "C63_laplace",
    "C63_improper_refuted"
   ],
   "note": "Exact arithmetic. Mode and precision come from lme4 (oracle); Eigen inverse, determinant of 1 x 1 matrices, the eigen-solver at n = 1, and the sizes of matrix square roots are hypotheses. Holds whatever a stored function gives where reading it is undefined (too far from the knots)."
  },
  {
   "property": "C64",
   "status": "proved",
   "theorems": [
    "C64_two_level"
   ],
   "note": "As for C63. That Q_ee is the precision lme4 supplies, not that of the conditional mode of the factor, is as in the code."
  },
  {
   "property": "C65",
   "status": "proved",
   "theorems": [
    "C65_total",
    "C65_checked"
   ],
   "note": "C65_checked is about the same model with integrals guarded by good_call (Spec/SequentialSpec.v). Sizes in the vector operations inside one integral are not checked by the model; they are determined by the sizes that good_call checks. Exact arithmetic."
  },
  {
   "property": "C66",
   "status": "proved",
   "theorems": [
    "C66_same_tree",
    "C66_limit"
   ],
   "note": "C66_limit is about the model with storing guarded by small_grid (Spec/SequentialSpec.v), the set of grid points being that of C13 and not a count from the code. Counts are exact integers; C17 is about overflow."
  },
  {
   "property": "C67",
   "status": "proved",
   "theorems": [
    "C67_rows",
    "C67_gaps_refuted",
    "C67_position_refuted",
    "C67_index_in_data_refuted",
    "C67_stale_refuted",
    "C67_short_refuted"
   ],
   "note": "Numeric data are integers; subscripts are names. C67_rows assumes the conditions of the statement; the _refuted theorems are the cases without them."
  },
  {
   "property": "C68",
   "status": "proved",
   "theorems": [
    "C68_constant",
    "C68_laplace",
    "C68_total",
    "C68_agrees"
   ],
   "note": "An undefined conversion delivers an arbitrary integer, depending on the place and round of the loop (to int) or on the argument (to unsigned int)."
  },
  {
   "property": "C69",
   "status": "proved",
   "theorems": [
    "C69_sequential",
    "C69_sequential_refuted",
    "C69_importance",
    "C69_importance_refuted",
    "C69_second_order",
    "C69_second_order_refuted"
   ],
   "note": "The three functions on frames with an offset are those on frames without: the code does not read the offset (Model/Offset.v)."
  },
  {
   "property": "C70",
   "status": "proved",
   "theorems": [
    "C70_sequential",
    "C70_second_order",
    "C70_importance"
   ],
   "note": "That a matrix becomes the array of its elements is what RcppEigen does (trusted). In C70_importance no value stands for the error of dev.resids."
  },
  {
   "property": "C71",
   "status": "proved",
   "theorems": [
    "C71_reported",
    "C71_exact",
    "C71_laplace",
    "C71_two_level",
    "C71_second_order",
    "C71_importance",
    "C71_importance_refuted"
   ],
   "note": "Exact arithmetic. That mode and precision supplied by lme4 change sign with the random effects is a hypothesis, as are those of C56, C63, C64, C44 and C52. Sequential reduction with more than one point and clusters of more than one random effect is covered only for exact symmetric integrals, as the statement says."
  },
  {
   "property": "C72",
   "status": "proved",
   "theorems": [
    "C72_left_side",
    "C72_rows",
    "C72_nested_refuted",
    "C72_one_index_refuted"
   ],
   "note": "The semantics of subscripts and cbind of R is part of the model (Model/Flatten.v). formula(terms(f)) is taken to be f. The operators of formulas are among the arbitrary functions that work element by element."
  },
  {
   "property": "C73",
   "status": "proved",
   "theorems": [
    "C73_no_sub",
    "C73_split",
    "C73_intercept_refuted",
    "C73_bars_refuted"
   ],
   "note": "terms(), drop.terms(), reformulate() and the precedence of +, - and | in the parser of R are part of the model (Model/SplitFormula.v) and trusted. Interactions are single terms; operators weaker than + other than the bar are not modelled."
  },
  {
   "property": "C74",
   "status": "proved",
   "theorems": [
    "C74_predictor",
    "C74_rows",
    "C74_unused",
    "C74_ignored_refuted",
    "C74_same_variable_refuted"
   ],
   "note": "The frames made by lme4 (parse_formula, parse_subformula) and the conversion to a sparse matrix are arbitrary functions; that frames of subformulas have one row for each combination of indices and that the conversion keeps the entries are hypotheses, with witnesses in C74_case. usable (Spec/FindModfrSpec.v) has the conditions of C41, suitable those of C72; the indices and data of a part are the results of find_indices_subform, which C67 is about."
  },
  {
   "property": "C75",
   "status": "proved",
   "theorems": [
    "C75_one_item",
    "C75_all_items"
   ],
   "note": "Exact arithmetic. The eigendecomposition of the Jacobi matrix and inverses of matrices are oracles with the hypotheses of C27 and C29. The integral over all items is the iterated integral in the order of the items. In C75_all_items the storage returns the function it is given, so the error shown is not one of the grids."
  },
  {
   "property": "C76",
   "status": "proved",
   "theorems": [
    "C76_weights",
    "C76_accepted",
    "C76_estimates",
    "C76_reported",
    "C76_importance_refuted",
    "C76_options",
    "C76_lfun",
    "C76_check",
    "C76_check_refuted",
    "C76_gaussian_refuted"
   ],
   "note": "The functions of other packages are fields of a record (externals in Model/Glmm.v) that every theorem is quantified over. optim is assumed to return a point where the function is finite and not larger than at the start, and numDeriv::grad to have evaluated the function where the gradient is returned; C76_case has witnesses. (4) assumes that what lme4 returns changes with signs of random effects as the model does. find_control_with_defaults, find_modfr_glmm, optimize_glmm and the loglikelihoods are those of C39, C74, C60, C44, C52 and C57."
  },
  {
   "property": "C77",
   "status": "proved",
   "theorems": [
    "C77_divergence",
    "C77_second_order",
    "C77_distance",
    "C77_default"
   ],
   "note": "Exact arithmetic. solve and determinant are oracles; the gradient and the second derivatives that numDeriv finds are arguments. The expectation of N(m2, V2) is any linear functional on functions of p numbers with its mean and covariance matrix; the claim needs nothing else of it. C77_case has two parameters and gives such a functional."
  },
  {
   "property": "C78",
   "status": "proved",
   "theorems": [
    "C78_accepted",
    "C78_form",
    "C78_brackets_refuted"
   ],
   "note": "Expressions are evaluated in exact arithmetic. C78_accepted is about expressions without numbers beside the variable, since numbers are refused (C41_no_numbers). (3) is refuted by C78_brackets_refuted. C78_case meets the hypotheses of the first two theorems."
  },
  {
   "property": "C79",
   "status": "proved",
   "theorems": [
    "C79_printed",
    "C79_summary",
    "C79_infinite",
    "C79_slopes_refuted",
    "C79_groups_refuted",
    "C79_no_fixed_refuted"
   ],
   "note": "(2)-(4) are refuted by theorems for all such fits. What lme4 puts in cnms, flist and theta is described in Spec/ReportSpec.v. Headings, the number of observations and rounding are not modelled. C79_case has two terms and a term with three components."
  },
  {
   "property": "C80",
   "status": "proved",
   "theorems": [
    "C80_factors",
    "C80_likelihood",
    "C80_right",
    "C80_last",
    "C80_likelihood_refuted"
   ],
   "note": "With closed (blocks of Lambdat are triangular) except where the frame is the right one. The last sentence is proved by a concrete frame with sums over two nodes as integrals."
  },
  {
   "property": "C81",
   "status": "proved",
   "theorems": [
    "C81_file",
    "C81_factor_refuted",
    "C81_normal"
   ],
   "note": "How numbers are written is a parameter: each number is one word that is read back as the rounded number, and whole numbers below a limit are not changed. Responses with two columns are not treated."
  },
  {
   "property": "C82",
   "status": "proved",
   "theorems": [
    "C82_precision",
    "C82_symmetric",
    "C82_positive",
    "C82_values"
   ],
   "note": "That lme4 and Matrix::expand give L and P with L L^T = P A P^T is a hypothesis, as is that P is a permutation matrix. Which matrix A lme4 factorizes is not modelled. C82_values only reads off the other two components. C82_case is a permutation that is not its own inverse."
  },
  {
   "property": "C83",
   "status": "proved",
   "theorems": [
    "C83_selects",
    "C83_vector",
    "C83_no_dimension",
    "C83_out_of_bounds"
   ],
   "note": "What R does with subscripts, commas and drop = FALSE is part of the model (Model/SubsetDim.v). Zero and negative indices are not treated. The function is not called anywhere in the package."
  },
  {
   "property": "C84",
   "status": "proved",
   "theorems": [
    "C84_glmm",
    "C84_lfun",
    "C84_shared_refuted"
   ],
   "note": "The assumption on lme4 is implements (Spec/EnvironmentSpec.v); errors of lme4 are RuntimeError. How lme4 computes the mode, and that its result does not depend on where the iteration starts, is not modelled. C84_shared_refuted is for an environment with the number of points in it, as lme4 has. C84_case has an environment that meets the hypotheses and is changed by evaluations."
  },
  {
   "property": "C85",
   "status": "proved",
   "theorems": [
    "C85_basis",
    "C85_grid",
    "C85_sparse_grid"
   ],
   "note": "Quantiles of the normal distribution, inverse and solution of linear systems are parameters with their properties as hypotheses, as in C33. C85_grid is for any basis with mirrored knots and functions; C85_sparse_grid is for the one that the code builds."
  },
  {
   "property": "C86",
   "status": "proved",
   "theorems": [
    "C86_integral",
    "C86_step"
   ],
   "note": "Inverse, solution of linear systems, square roots of matrices, eigendecomposition for the quadrature rule and quantiles of the normal distribution are parameters with their properties as hypotheses. The normal approximations are nondegenerate, and the second one is the first one with the signs changed."
  },
  {
   "property": "C87",
   "status": "proved",
   "theorems": [
    "C87_name",
    "C87_other",
    "C87_heading",
    "C87_fits"
   ],
   "note": "How R writes a number and a formula are parameters: a number is one word, whole numbers below a limit (10^15 in R) are written exactly, and formulas take one line. Values of the option that are not whole or not below the limit may be rounded in the heading. The random draws of importance sampling are the same for the same size, that is, both fits start from the same seed."
  },
  {
   "property": "C88",
   "status": "proved",
   "theorems": [
    "C88_result",
    "C88_quiet",
    "C88_trace",
    "C88_dots",
    "C88_more"
   ],
   "note": "optim is any algorithm that asks for values one after the other; the time for an evaluation is an argument. Formatting of the numbers by sprintf and warnings are not modelled. For verbose > 0 the theorems are for fits whose loglikelihood exists at the start, and loglikelihoods that are numbers or errors of R, not NA. The two evaluations before the optimizer may count for the first dot."
  },
  {
   "property": "C89",
   "status": "proved",
   "theorems": [
    "C89_again",
    "C89_glmm",
    "C89_warnings",
    "C89_warning_refuted"
   ],
   "note": "As in C76, what other packages compute is a function of the arguments; for method IS this means the same random numbers in both calls. Values of options are single numbers. The warning about options that the user did not give is C89_warning_refuted."
  }
 ]
}