{"id": "C01", "title": "Dependence-graph bookkeeping is exact for every operation history", "statement": "Start a Graph from a list of distinct items and apply any sequence of addEdge/connect/removeNode calls in which no edge names a removed item or joins an item to itself. After every prefix, getItems lists exactly the not-removed items in construction order, findNeighbours(i) lists without repetition exactly the remaining items joined to i, findDegree(i) is its length, numVertices() is the number of remaining items and numEdges() is the number of unordered adjacent pairs of remaining items.", "quantifier": "for all item lists without repetition, all operation sequences respecting the stated discipline, all prefixes", "why_tests_cant": "The counters are updated incrementally; only an invariant over unbounded histories shows they never drift from the graph they describe.", "anchors": ["src/Graph.cpp:Graph::addEdge", "src/Graph.cpp:Graph::removeNode", "src/Graph.cpp:Graph::connect", "src/Graph.cpp:Graph::findNeighbours", "src/Graph.cpp:Graph::findDegree", "src/Graph.cpp:Graph::getItems"]}
{"id": "C02", "title": "isComplete answers completeness of the remaining graph", "statement": "In every state reached as in C01, isComplete(graph) returns true exactly when every two distinct remaining items are adjacent.", "quantifier": "for all reachable graph states of any size", "why_tests_cant": "The function only compares two counters with n(n-1)/2; that the comparison is equivalent to completeness is a counting argument over all graphs.", "anchors": ["src/Graph.cpp:isComplete"]}
{"id": "C03", "title": "Edge counter survives re-use of a removed item only if it had no live neighbours", "statement": "addEdge on a previously removed item re-activates it. The documented meaning of numEdges() (number of edges among remaining items) is not restored by the re-activation: there is a short history after which numEdges() differs from the number of adjacent pairs of remaining items and isComplete answers false on a complete graph.", "quantifier": "exists a history of public operations (counterexample), for all histories outside C01's discipline nothing is guaranteed", "why_tests_cant": "Existing tests never re-use a removed item; the drift is a property of operation histories.", "anchors": ["src/Graph.cpp:Graph::addEdge", "src/Graph.cpp:Graph::removeNode"]}
{"id": "C04", "title": "The dependence graph joins exactly the items that share a factor", "statement": "For every list of factors with repetition-free scopes, the dependence graph has one vertex for each item occurring in some scope, in increasing order, and two distinct items are adjacent if and only if some factor contains both.", "quantifier": "for all finite lists of factors", "why_tests_cant": "Quantifies over all factor lists; tests look at a few graphs.", "anchors": ["inst/include/dependenceGraph.h:makeDependenceGraph", "src/itemsHelper.cpp:findItemsUnion"]}
{"id": "C05", "title": "Building a cluster graph always ends in a rooted tree", "statement": "For every list of factors with repetition-free scopes construction terminates without an exception, there is at least one cluster, the number of edges is the number of clusters minus one, edge k leaves cluster k, and its other endpoint is an existing cluster with a strictly larger index. Hence every cluster reaches the last cluster, and sending messages in edge order never uses a cluster before all its incoming messages have arrived.", "quantifier": "for all finite lists of factors", "why_tests_cant": "Termination and the acyclic shape for arbitrary graphs need induction over eliminations.", "anchors": ["src/ClusterGraph.cpp:ClusterGraph::initializeInternal", "src/ClusterGraph.cpp:ClusterGraph::initialize", "src/ClusterGraph.cpp:ClusterGraph::nEdges", "src/ClusterGraph.cpp:ClusterGraph::nClusters"]}
{"id": "C06", "title": "Every factor is multiplied into exactly one cluster", "statement": "After construction from any list of factors with repetition-free scopes, the factors held by the clusters taken together are a permutation of the given factors, each one sits in a cluster whose items contain its scope, none is dropped and none is used twice.", "quantifier": "for all finite lists of factors", "why_tests_cant": "A factor that fits no cluster would be dropped silently; that this never happens relies on the triangulation covering every clique, for all inputs.", "anchors": ["src/ClusterGraph.cpp:populateBelief", "src/ClusterGraph.cpp:ClusterGraph::populateClusters", "src/ClusterGraph.cpp:ClusterGraph::initializeInternal"]}
{"id": "C07", "title": "Running intersection", "statement": "In every constructed cluster graph, for every item the clusters containing it are connected through edges whose separators contain it; separators are contained in both endpoint clusters and equal the intersection of the source cluster with everything eliminated later.", "quantifier": "for all finite lists of factors, all items, all pairs of clusters", "why_tests_cant": "A global structural property of the tree produced by the greedy elimination; tests can only inspect a few trees.", "anchors": ["src/ClusterGraph.cpp:ClusterGraph::initializeInternal"]}
{"id": "C08", "title": "Clusters over-count items by exactly one", "statement": "For every set of items contained together in some cluster, the number of clusters containing the set is one more than the number of separators containing it. In particular sub-matrices of a precision matrix handed to clusters minus those handed to separators add back to the matrix at every entry whose two items share a cluster, so the initial normal approximations of clusters divided by those of the edges is the supplied normal.", "quantifier": "for all finite lists of factors, all item sets inside a cluster, all precision matrices supported on the cluster graph", "why_tests_cant": "Counting identity over arbitrary trees; it is what makes the cluster/edge factorisation of the normal approximation correct.", "anchors": ["src/ClusterGraph.cpp:ClusterGraph::setNormalApprox", "src/ClusterGraph.cpp:ClusterGraph::initializeInternal", "src/subsetEigen.cpp:getSparseMatrixSubset"]}
{"id": "C09", "title": "Greedy minimum-neighbour elimination", "statement": "The list of clusters returned for any factors is the one produced by the abstract procedure: while the current graph is not complete, take the first item (in increasing order) having the fewest neighbours, emit it with its neighbours as a cluster, join the neighbours pairwise and delete the item; finally emit all remaining items. width() is the size of the largest cluster, at least the size of every factor scope and at most the number of items.", "quantifier": "for all finite lists of factors", "why_tests_cant": "Refinement of the concrete counters-and-adjacency implementation to an abstract graph process for all inputs.", "anchors": ["src/ClusterGraph.cpp:ClusterGraph::initializeInternal", "src/ClusterGraph.cpp:ClusterGraph::width"]}
{"id": "C10", "title": "Message passing keeps the represented product", "statement": "For every cluster graph and every sequence of forward or backward passes with any marginalisation operator, the sum of all cluster log-values minus the sum of all edge log-values, at any assignment of the items, stays what it was; and extractBeliefs returns factors whose log-values add up to the same total.", "quantifier": "for all cluster graphs, all message sequences, all assignments, any marginal operator", "why_tests_cant": "An invariant over all message schedules.", "anchors": ["src/ClusterGraph.cpp:ClusterGraph::passMessage", "src/ClusterGraph.cpp:ClusterGraph::calibrateInternal", "src/ClusterGraph.cpp:ClusterGraph::extractBeliefs"]}
{"id": "C11", "title": "One forward pass computes the full integral when single-variable integration is exact", "statement": "If integrating one item out of a cluster is exact (the stored result equals the log of a fixed one-dimensional linear functional of the exponential), then after construction from any factors and one forward pass, the log normalizing constant of the last cluster equals the log of the iterated integral over all items of the exponential of the sum of all factors.", "quantifier": "for all finite lists of factors, all factor functions, all one-dimensional positive linear functionals", "why_tests_cant": "This is junction-tree correctness; it needs running intersection, family preservation and an induction over messages for all models.", "anchors": ["src/ClusterGraph.cpp:computeLogNormalizingConstant", "src/ClusterGraph.cpp:ClusterGraph::calibrateForward", "src/MixedContinuousBelief.cpp:MixedContinuousBelief::margin", "src/MixedContinuousBelief.cpp:MixedContinuousBelief::computeLogNormalizingConstant"]}
{"id": "C12", "title": "compute_log_normalizing_constant is a pure function of its arguments", "statement": "Whatever sequence of evaluations with whatever parameters was made before through the same cluster graph, the value computed for given mean, precision and parameters is the same, and the cluster graph seen by the caller (clusters, edges, calibrated flag) is unchanged.", "quantifier": "for all call histories, all parameter values", "why_tests_cant": "The factors are shared by pointer between copies and keep mutable caches of theta and beta; history-independence is a statement about all call sequences.", "anchors": ["src/ClusterGraph.cpp:computeLogNormalizingConstant", "src/GLMMBelief.cpp:GLMMBelief::setTheta", "src/GLMMBelief.cpp:GLMMBelief::setBeta", "src/GLMMBelief.cpp:GLMMBelief::evaluate"]}
{"id": "C13", "title": "findNumGridPoints counts the sparse grid", "statement": "For every dimension d>=1 and level k, findNumGridPoints(d,k) is the number of pairs (levels, positions) with levels a d-tuple of naturals of sum at most k and each position below 2^level; choose(n,k) is the binomial coefficient for 0<=k<=n and is 1 for k>n.", "quantifier": "for all d, k, n", "why_tests_cant": "Closed formula versus an infinite family of finite sets.", "anchors": ["src/counting.cpp:choose", "src/counting.cpp:findNumGridPoints"]}
{"id": "C14", "title": "Sparse-grid points and array indices are in bijection", "statement": "Advancing from the first point visits, in findNumGridPoints(d,k) steps, every grid point of level sum at most k exactly once, and the point reached after n advances is the one whose directly computed index is n.", "quantifier": "for all dimensions d>=1, all n, all grid points", "why_tests_cant": "Two independently written ranking schemes (incremental and closed form) must agree at every one of infinitely many points.", "anchors": ["src/Point.cpp:Point::advance", "src/Point.cpp:Point::setIndex", "src/Point.cpp:Point::advanceLevels", "src/Point.cpp:Point::advancePositions"]}
{"id": "C15", "title": "Hierarchisation never touches a coefficient outside the array or out of order", "statement": "For every d and k and every point i<size, every parent index read while hierarchising point i in direction t lies in [0,i), the parents read are exactly the grid points agreeing with i outside t and of lower level in direction t, each once, and every basis level used is at most k.", "quantifier": "for all d, k, t, i", "why_tests_cant": "Index safety for all grid shapes.", "anchors": ["src/SparseGrid.cpp:SparseGrid::hierarchize", "src/Point.cpp:Point::firstParent", "src/Point.cpp:Point::advanceInDirection"]}
{"id": "C16", "title": "The sparse-grid interpolant reproduces the stored function at every grid point", "statement": "Whenever the one-dimensional basis is nodal (level-l functions vanish at all other knots of level at most l, are 1 at their own knot, level 0 is constant 1), interpolating a stored function at any of its grid points returns the function value there, and the interpolant is nowhere larger than the largest stored value.", "quantifier": "for all functions, all dimensions, all levels, all grid points, all nodal bases", "why_tests_cant": "Correctness of an in-place, direction-by-direction linear transform for arbitrary dimension and level.", "anchors": ["src/SparseGrid.cpp:SparseGrid::hierarchize", "src/SparseGrid.cpp:SparseGrid::interpolate", "src/SparseGrid.cpp:SparseGrid::initializeStorage", "src/Point.cpp:Point::computeBasis"]}
{"id": "C17", "title": "No integer overflow inside the complexity limit that the package enforces", "statement": "If width^(2*nSL) does not exceed the limit enforced before sequential reduction is run, then no intermediate value of the index arithmetic for any grid of dimension below the width leaves the 32-bit int range.", "quantifier": "for all widths and levels admitted by the guard, all grid points", "why_tests_cant": "Covers every admitted size; outside the guard the arithmetic is undefined behaviour.", "anchors": ["src/counting.cpp:choose", "src/counting.cpp:findNumGridPoints", "src/Point.cpp:Point::setIndex", "R/loglikelihood.R:find_lfun_SR"]}
{"id": "C18", "title": "Completeness test overflows for large models", "statement": "isComplete computes numVertices*(numVertices-1) in 32-bit int. The product is representable exactly when the graph has at most 46341 vertices; with more random effects the expression is undefined behaviour.", "quantifier": "for all vertex counts", "why_tests_cant": "Nobody tests a model with 46342 random effects.", "anchors": ["src/Graph.cpp:isComplete"]}
{"id": "C19", "title": "Binomial-logit log-density derivatives", "statement": "For every response, every non-negative weight and every linear predictor whose mean is strictly between the clipping limits, evaluateDerivative, evaluateSecondDerivative, evaluateThirdDerivative and evaluateFourthDerivative of the logit family are the first four derivatives of evaluate with respect to the linear predictor.", "quantifier": "for all responses, weights and linear predictors in the unclipped region", "why_tests_cant": "Real-analysis statement at every point of a continuum.", "anchors": ["src/FamilyGivenMean.cpp", "src/Binomial.cpp", "src/LogitLink.cpp", "src/Family.cpp"]}
{"id": "C20", "title": "Binomial-probit log-density derivatives", "statement": "The same as C19 for the probit link.", "quantifier": "for all responses, weights and linear predictors in the unclipped region", "why_tests_cant": "Real-analysis statement at every point of a continuum.", "anchors": ["src/ProbitLink.cpp", "src/Binomial.cpp", "src/Family.cpp"]}
{"id": "C21", "title": "Clipping of the mean", "statement": "The mean used in the likelihood always lies in [1e-8, 1-1e-8], so the log-density is finite for every finite linear predictor; where the clip is active evaluate is locally constant while the reported first derivative is not zero, so there the reported derivative is not the derivative.", "quantifier": "for all linear predictors; exists a linear predictor (counterexample)", "why_tests_cant": "Boundary behaviour on a continuum.", "anchors": ["src/Binomial.cpp", "src/LogitLink.cpp"]}
{"id": "C22", "title": "Mean of an overflowing linear predictor", "statement": "When exp of the linear predictor overflows to infinity the logit mean is NaN and clipping does not repair it, so the log-likelihood of that observation is NaN.", "quantifier": "for every linear predictor beyond the overflow threshold, any weights", "why_tests_cant": "Needs the IEEE special-value rules rather than a sample of values.", "anchors": ["src/LogitLink.cpp:LogitLink::computeMean", "src/Binomial.cpp"]}
{"id": "C23", "title": "Multiplying and dividing beliefs", "statement": "For every belief whose items contain those of another, a *= b makes the log-value the sum and a /= b the difference at every assignment; a *= b; a /= b restores every log-value; this holds after any sequence of such operations, whatever the order of the items.", "quantifier": "for all operation sequences, all assignments, all item orders", "why_tests_cant": "Histories and argument orders are unbounded.", "anchors": ["src/MixedContinuousBelief.cpp:MixedContinuousBelief::operator*=", "src/MixedContinuousBelief.cpp:MixedContinuousBelief::operator/=", "src/MixedContinuousBelief.cpp:MixedContinuousBelief::evaluate", "src/MixedContinuousBelief.cpp:MixedContinuousBelief::recomputeRelativeItems"]}
{"id": "C24", "title": "Looking up an item that is not there", "statement": "findRelativeItem returns the position of the item whenever it is present; when it is absent it returns 0 instead of failing (the exception object is built but not thrown). Cluster-graph construction and message passing never perform such a lookup.", "quantifier": "for all items and item lists; for all cluster graphs", "why_tests_cant": "Absence of a silent failure on all reachable paths.", "anchors": ["src/itemsHelper.cpp:findRelativeItem", "src/NormalBelief.cpp:NormalBelief::operator*=", "src/ClusterGraph.cpp:ClusterGraph::passMessage"]}
{"id": "C25", "title": "Derivatives of a belief product", "statement": "The gradient and Hessian assembled for a cluster are, entry by entry, the sums (with sign) of the corresponding factor gradients and Hessians scattered to the positions of their items, so if each factor's derivatives are right the cluster's are.", "quantifier": "for all cluster beliefs, all assignments", "why_tests_cant": "Index gathering and scattering for all item layouts.", "anchors": ["src/MixedContinuousBelief.cpp:MixedContinuousBelief::evaluateDerivative", "src/MixedContinuousBelief.cpp:MixedContinuousBelief::evaluateSecondDerivative", "src/matrixHelper.cpp:addVectorSubset", "src/matrixHelper.cpp:addMatrixSubset"]}
{"id": "C26", "title": "The derivatives of an integrated belief are derivatives of the value it reports", "statement": "If the integrand's gradient and Hessian are right then evaluateDerivative and evaluateSecondDerivative of the integrated belief are the gradient and Hessian of evaluate, quadrature error included.", "quantifier": "for all differentiable integrands, all quadrature rules, all normal approximations, all arguments", "why_tests_cant": "Calculus statement on a continuum, for all rules.", "anchors": ["src/IntegratedFunction.cpp:IntegratedFunction::evaluateDerivative", "src/IntegratedFunction.cpp:IntegratedFunction::evaluateSecondDerivative", "src/QuadratureRule.cpp:integrate1DVector"]}
{"id": "C27", "title": "Where the adaptive quadrature is centred", "statement": "The centre used for integrating item 1 given x equals the conditional mean of the normal approximation if and only if the regression correction cross.(x - mean2) vanishes; in general it is the conditional mean reflected about the marginal mean (sign error). The conditional standard deviation is the right one.", "quantifier": "for all normal approximations and all x; exists a counterexample to centring", "why_tests_cant": "The deviation only shows as loss of accuracy; tests compare with tolerances.", "anchors": ["src/IntegratedFunction.cpp:IntegratedFunction::findConditionalMean", "src/IntegratedFunction.cpp:IntegratedFunction::initializeConditionalTerms"]}
{"id": "C28", "title": "Product of a normal belief with one on a subset of its items", "statement": "multiplySubset yields the normal proportional to the product of the two densities whenever the means agree on the subset (the case in which the package uses it), or when the subset is everything; in general the resulting mean is wrong.", "quantifier": "for all dimensions, subsets, means and precisions with the stated condition; exists a counterexample otherwise", "why_tests_cant": "Matrix identity for all sizes.", "anchors": ["src/MultiNormal.cpp:MultiNormal::multiplySubsetInternal", "src/NormalBelief.cpp:NormalBelief::operator*="]}
{"id": "C29", "title": "Gauss-Hermite rule", "statement": "Given an orthonormal eigendecomposition of the Jacobi matrix, the n-point rule integrates every polynomial of degree at most 2n-1 times a normal kernel of any location and scale exactly (up to the constant used for sqrt(pi)), and weights are positive and add to that constant. The constant is too large by a factor between 1 + 5e-11 and 1 + 6e-11.", "quantifier": "for all n, all polynomials of degree at most 2n-1, all locations and scales", "why_tests_cant": "Exactness for all n is an algebraic theorem.", "anchors": ["src/QuadratureRule.cpp:QuadratureRule::findHermiteJacobi", "src/QuadratureRule.cpp:QuadratureRule::initialize", "src/QuadratureRule.cpp:integrate1D"]}
{"id": "C30", "title": "nSL = 0 reproduces the Laplace approximation of an integral", "statement": "With a one-point rule the integrated belief is log f at the centre + log(sqrt(2 pi) sigma), up to the constant used for sqrt(pi); integrated over one item after the other, any belief with a nondegenerate normal approximation N(m, P^-1) over any number of items gives Laplace's formula log f(m) + d/2 log(2 pi) - 1/2 log det P plus d log of the ratio of that constant to sqrt(pi), as long as what is stored in between is right at the mean.", "quantifier": "for all integrands", "why_tests_cant": "Universally quantified over integrands.", "anchors": ["src/QuadratureRule.cpp:QuadratureRule::initialize", "src/IntegratedFunction.cpp:IntegratedFunction::evaluate", "R/control.R:find_control_with_defaults"]}
{"id": "C31", "title": "The quadratic modifier makes the stored function look normal", "statement": "Whenever the equations for it have a solution (so for every invertible second-derivative difference), f plus the modifier is smooth and has at the mean the first and second derivatives of the given normal; the value read back from the store at any transformed grid point is exactly f there. With the basis of the code one of these points is the mean, so that the whole SparseStore can stand for the stored function of C30: the Laplace approximation results.", "quantifier": "for all functions, locations, derivatives; all grid points", "why_tests_cant": "Matrix calculus for all dimensions.", "anchors": ["src/Quadratic.cpp", "src/SparseStore.cpp", "src/SparseGridTransform.cpp"]}
{"id": "C32", "title": "Knots are distinct and located by the interval lookup", "statement": "For every level not above levelMax>=1 and any quantile function that is increasing, odd about 1/2 and convex above it, truncation to the bandwidth grid leaves the knots strictly increasing and each within one bandwidth of the scaled quantile it stands for; findIntervalId(x) is the number of knots not above x for x above the first knot, 0 at or below it, and undefined from 2^32 bandwidths above the first knot on. Quantiles of the standard normal distribution meet the conditions for levelMax between 1 and 25.", "quantifier": "for all levels, all x, all such quantile functions", "why_tests_cant": "Continuum of x and all levels.", "anchors": ["src/BasisLevel.cpp:BasisLevel::findIntervalId", "src/BasisLevel.cpp:BasisLevel::initializeGridIds", "src/BasisLevel.cpp:BasisLevel::findKnotsTotal"]}
{"id": "C33", "title": "Spline basis is nodal", "statement": "If Eigen solves every solvable system exactly, the basis is built for every levelMax >= 1 whose knots fit the int range, and the level-l basis function is 1 at its own knot and 0 at every other knot of level at most l, for every level. So sparse grids over it interpolate any function at all grid points.", "quantifier": "for all levels and knots", "why_tests_cant": "All levels; tests look at a few.", "anchors": ["src/BasisLevel.cpp:BasisLevel::initializeSplineCoefficients", "src/BasisLevel.cpp:BasisLevel::evaluate"]}
{"id": "C34", "title": "levelMax = 0 divides zero by zero", "statement": "Constructing the basis for levelMax = 0 (documented value nSL = 0) converts 0/0 to int, undefined behaviour; for levelMax between 1 and 25 and quantiles of the standard normal distribution every such conversion made in construction is defined; from levelMax = 27 on the conversion for the first knot of the last level is undefined.", "quantifier": "for all levelMax; counterexample at 0", "why_tests_cant": "Undefined behaviour is invisible to tests on one platform.", "anchors": ["src/BasisLevel.cpp:BasisLevel::initializeBandwidth", "src/BasisLevel.cpp:BasisLevel::initializeKnots"]}
{"id": "C35", "title": "A GLMM factor is a pure function of its argument and parameters; its constructor is memory safe only for small theta indices", "statement": "After any history of evaluations, evaluate(x, parameters) is the sum of observation log-densities at linear predictor X beta + (Lambdat(theta) Zt)^T x. The constructor reads theta at every entry of Lind from a vector of length the number of items: it is in bounds exactly if all entries of Lind are below that number, which fails for correlated random effects.", "quantifier": "for all histories; exists a documented model violating bounds", "why_tests_cant": "Histories and memory safety.", "anchors": ["src/GLMMBelief.cpp:GLMMBelief::GLMMBelief", "src/GLMMBelief.cpp:GLMMBelief::setLambdatThetaZt", "src/GLMMBelief.cpp:GLMMBelief::evaluate"]}
{"id": "C36", "title": "Parameter objects", "statement": "For every sequence of setter calls the getters return the last successfully set value (defaults before any); a rejected family or link name leaves everything unchanged. Negative numbers of levels and numbers from 1 to 25 are accepted; zero levels and numbers of quadrature points below one are undefined behaviour, not errors.", "quantifier": "for all sequences of get/set calls", "why_tests_cant": "State histories.", "anchors": ["src/accessParameters.cpp", "inst/include/Parameters.h"]}
{"id": "C37", "title": "Each observation enters the factorisation exactly once", "statement": "Whenever the split of the model frame succeeds, every observation is in exactly one local term, whose items contain all random effects the observation depends on; the split fails only if some observation's random effects lie in no clique. If every observation has a random effect and the diagonal of Lambdat is stored, the local terms together are the log-likelihood of all observations, and there is one standard normal term for each random effect.", "quantifier": "for all incidence structures and clique lists", "why_tests_cant": "All designs.", "anchors": ["R/splitframe.R:add_obs", "R/splitframe.R:find_factorization_terms"]}
{"id": "C38", "title": "Observations without random effects shift the allocation", "statement": "The active sets are computed by grouping the non-zero entries by observation and indexed by position: if some observation has no non-zero entry, later observations are given the active set of another observation.", "quantifier": "exists a design (counterexample); for all designs without empty observations the indexing is right", "why_tests_cant": "Data-dependent misalignment.", "anchors": ["R/splitframe.R:find_active", "R/splitframe.R:add_obs"]}
{"id": "C39", "title": "Control options", "statement": "For every method and user control list, the completed control list contains every option of the method, user-supplied values win over defaults, the number of quadrature points for SR is always 2^(nSL+1)-1, and an unknown method is an error. (check_Laplace is switched off unless the method is first-order Laplace; its default is not the documented one.)", "quantifier": "for all control lists", "why_tests_cant": "All combinations of options.", "anchors": ["R/control.R:find_control_with_defaults"]}
{"id": "C40", "title": "Flattening multi-indices", "statement": "multi_to_flat is a bijection between the index tuples within the dimensions and 1..prod(dims), and agrees with the row order of expand.grid.", "quantifier": "for all dimension vectors and tuples", "why_tests_cant": "All array shapes.", "anchors": ["R/indexing.R:multi_to_flat"]}
{"id": "C41", "title": "Substituted expressions are evaluated linearly", "statement": "For every expression of +, -, * , / and subscripts with names as leaves, in which the multipliers are single numbers (or, where there are no random effects, vectors with one element for each row), subscripts of several indices stand directly on the variable and are within bounds, and no joined name of indices is the name of something else, the fixed- and random-effect rows of the resulting model frame applied to any coefficients equal the expression evaluated with the substituted variable replaced by its own linear predictor.  This fails for clashing names. It also fails for vector multipliers when there is more than one random effect: of n rows and q random effects, effect i of row k is multiplied by element (i + q k) mod n of the vector, counted from 0, instead of element k; with one random effect the product is right. Numbers as operands are refused with an error.", "quantifier": "for all such expressions, data and coefficients; counterexamples for the rest", "why_tests_cant": "Induction over an infinite language of expressions.", "anchors": ["R/modify_subexpr.R:modify_subexpr", "R/model_frames.R:`+fr`", "R/model_frames.R:`[fr`", "R/model_frames.R:`*fr`"]}
{"id": "C42", "title": "Attaching subframes", "statement": "Concatenating model frames gives block-diagonal Lambdat, shifted theta indices and stacked Zt so that the linear predictor is the sum of the two frames' predictors at their own parameters; the lower bounds of the second frame's theta are lost.", "quantifier": "for all pairs of frames; counterexample for the bounds", "why_tests_cant": "All shapes.", "anchors": ["R/model_frames.R:concatenate_frames", "R/model_frames.R:attach_subframes"]}
{"id": "C43", "title": "Checks on Sub() terms", "statement": "The check that each Sub() term involves exactly one substituted variable passes as soon as one of the terms involves a variable: it never reports a term with two variables, which is accepted, and reports none only when all terms have none; another term without variables passes it and fails later with another error.", "quantifier": "for all count vectors", "why_tests_cant": "Logic of the test is wrong for all inputs of a kind.", "anchors": ["R/subformula.R:match_subform_subexpr"]}
{"id": "C44", "title": "Importance-sampling estimate", "statement": "For every family, frame and parameter value, find_log_integrand returns for each column of the matrix of random effects minus half the deviance at X beta + Z Lambda u plus the log of the normal density of that column. The draws are an affine function of the standard normal ones, and the density used in the weights is the density of the draws. The value is the log of the average of integrand over density (the shift by the mean log-weight cancels), at least the average of the log-weights, and the mean of integrand over density with respect to the draws is the integral of the integrand. The covariance of the draws is inverse(R R^T) for precision R^T R, which is not the inverse precision in general.", "quantifier": "for all frames, families, parameters, draws, normal approximations; counterexample for the covariance", "why_tests_cant": "Universally quantified identities, and integrals over all draws.", "anchors": ["R/IS.R:find_log_integrand", "R/IS.R:transform_normal", "R/IS.R:find_log_weights", "R/IS.R:find_lfun_IS"]}
{"id": "C45", "title": "Sign of the random-effect standard deviations is irrelevant", "statement": "When Lambda is diagonal, replacing theta by its absolute value and flipping the sign of the corresponding random effects leaves the integrand unchanged, so reporting absolute values does not change the likelihood or the covariances.  glmm does so when all lower bounds are 0, which is right for frames from lme4, but not for frames with attached subframes, whose bounds are lost.", "quantifier": "for all theta, all random effects; counterexample for attached frames", "why_tests_cant": "Symmetry on a continuum.", "anchors": ["R/fit.R", "R/optimization.R"]}
{"id": "C46", "title": "Gradient and Hessian of a GLMM factor", "statement": "Where no mean is clipped, the vector and matrix a factor reports as derivatives with respect to its random effects are the gradient and the Hessian of the value it reports, after any history of calls.", "quantifier": "for all data of consistent sizes, all histories, all parameters, all points without clipped means", "why_tests_cant": "Derivatives on a continuum.", "anchors": ["src/GLMMBelief.cpp:GLMMBelief::evaluateDerivative", "src/GLMMBelief.cpp:GLMMBelief::evaluateSecondDerivative"]}
{"id": "C47", "title": "Derivatives of a normal belief", "statement": "For a symmetric precision, evaluate is the normalizer minus half the quadratic form of the precision about the mean, and evaluateDerivative and evaluateSecondDerivative are its gradient and Hessian.", "quantifier": "for all dimensions, symmetric precisions, means and arguments", "why_tests_cant": "Derivatives on a continuum.", "anchors": ["src/MultiNormal.cpp:MultiNormal::evaluate", "src/MultiNormal.cpp:MultiNormal::evaluateDerivative", "src/MultiNormal.cpp:MultiNormal::evaluateSecondDerivative"]}
{"id": "C48", "title": "Derivatives of the spline basis are derivatives", "statement": "Every basis function is twice continuously differentiable on the real line, across all knots, and evaluateDerivative and evaluateSecondDerivative return its first and second derivative wherever evaluate is defined.", "quantifier": "for all levels, positions, evaluation points, all levelMax >= 1 whose knots fit", "why_tests_cant": "Smoothness at knots cannot be observed by evaluating at finitely many points.", "anchors": ["src/BasisLevel.cpp:BasisLevel::evaluateDerivative", "src/BasisLevel.cpp:BasisLevel::evaluateSecondDerivative", "src/BasisLevel.cpp:BasisLevel::initializeSplineCoefficients"]}
{"id": "C49", "title": "Functions the sparse grid reproduces", "statement": "A sparse grid made from a function that at the grid points is a linear combination of products of basis functions of grid points interpolates by min(that combination, largest value at a grid point) at every point of the domain; a SparseStore made from any quadratic function, over a normal with any mean and any precision with square roots, returns that function exactly at every point of the domain.", "quantifier": "for all dimensions, levels, combinations, quadratic functions, normals, evaluation points", "why_tests_cant": "Continuum of evaluation points, all dimensions and levels.", "anchors": ["src/SparseGrid.cpp:SparseGrid::hierarchize", "src/SparseGrid.cpp:SparseGrid::interpolate", "src/SparseStore.cpp:SparseStore::evaluate", "src/SparseGridTransform.cpp:SparseGridTransform::interpolate"]}
{"id": "C50", "title": "The derivatives the sparse grid and the store return are derivatives of the function they return", "statement": "interpolate is the minimum of a twice differentiable function F that agrees with the stored function at the points of the grid and of the largest value m on the grid. Where F < m the vector and the matrix returned by interpolateDerivative and interpolateSecondDerivative are the gradient and the Hessian of F, and elsewhere they are zero. Through the linear change of variables, the subtraction of half the squared norm and the modifier, SparseStore returns the minimum of two twice differentiable functions, and wherever these differ evaluateDerivative is the gradient and evaluateSecondDerivative the Hessian of what evaluate returns. Where they are equal, for example at the grid point with the largest value, the vector returned need not be a gradient.", "quantifier": "every basis with twice differentiable nodal functions, dimension, level, function to be stored, normal and point", "why_tests_cant": "Tests compare derivatives with finite differences at a few points; the cut-off makes the function non-differentiable on a set that tests do not hit except by design.", "anchors": ["src/SparseGrid.cpp:SparseGrid::interpolateDerivative", "src/SparseGrid.cpp:SparseGrid::interpolateSecondDerivative", "src/Point.cpp:Point::computeBasisDerivative", "src/SparseGridTransform.cpp:SparseGridTransform::interpolateDerivative", "src/SparseStore.cpp:SparseStore::evaluateDerivative"]}
{"id": "C51", "title": "Importance sampling and the sequential reduction integrate the same function", "statement": "For the binomial family with logit or probit link, responses between 0 and 1 and means that the C++ code does not clip, the integrand of the importance sampler (from the R family functions) is the log-likelihood computed by Family::evaluate at the same linear predictors, plus the log of the normal density of the random effects, minus the log-likelihood of the saturated model, which does not depend on the parameters. Where a mean is clipped the two differ.", "quantifier": "all frames, parameters, random effects; both links; counterexample with a clipped mean", "why_tests_cant": "The two code paths are in different languages and are compared by tests only through their final approximations.", "anchors": ["R/IS.R:find_log_integrand", "src/Family.cpp:Family::evaluate", "src/Binomial.cpp:Binomial::checkMean"]}
{"id": "C52", "title": "The second-order Laplace term is the one of the expansion", "statement": "For binomial responses with logit or probit link, minus the log of the joint density of observations and random effects has partial derivatives of the orders 1 to 4 everywhere; at any point where no mean is clipped, find_epsilon_1 is -1/8 of the contraction of the fourth derivatives, 1/12 and 1/8 of the two contractions of pairs of third derivatives, all with the inverse of the precision it is given. The approximate log-likelihood of order 2 is that of order 1 plus this number, and only the orders 1, and 2 for binomial responses with logit link, give a result. Where a mean is clipped the term can be wrong even at the mode. The divergence reported as a check is half the squared length, in the metric of the precision, of the Newton step that the gradient of the term causes.", "quantifier": "all frames, parameters, dimensions, points, precisions with an inverse; counterexample with a clipped mean", "why_tests_cant": "The expansion has sums over all sextuples of random effects; tests compare single numbers, and dropping or confusing one of the contractions changes them by small amounts only.", "anchors": ["R/hol.R:find_M", "R/hol.R:find_epsilon_1", "R/hol.R:find_laplace_divergence", "R/laplace.R:check_if_order_implemented", "R/laplace.R:find_lfun_Laplace", "src/Family.cpp:Family::evaluateThirdDerivative", "src/Family.cpp:Family::evaluateFourthDerivative"]}
{"id": "C53", "title": "A calibrated cluster graph holds marginals", "statement": "With an exact one-variable integration for which the order of integration does not matter, calibrate leaves in every cluster and in every edge the marginal of the product of all factors on its items, whatever messages were passed before. margin(items) returns the marginal on the items asked for, and refuses items that are not all in one cluster (or repeated), as long as no message between normal approximations only was passed after a calibration; the log normalizing constant is the integral of the product whatever was done before. After setNormalApprox on a calibrated graph the flag isCalibrated_ is out of date and margin returns something that is not a marginal.", "quantifier": "all lists of factors, all sequences of operations, all sets of items; counterexample for the stale flag", "why_tests_cant": "Only runs through both passes over many tree shapes, with the operations in any order, would show that old edge beliefs are divided out of the right cluster; the stale flag needs a particular order of calls.", "anchors": ["src/ClusterGraph.cpp:ClusterGraph::calibrate", "src/ClusterGraph.cpp:ClusterGraph::margin", "src/ClusterGraph.cpp:ClusterGraph::passMessage", "src/ClusterGraph.cpp:ClusterGraph::setNormalApprox", "src/MixedContinuousBelief.cpp:MixedContinuousBelief::margin"]}
{"id": "C54", "title": "The normal approximations handed out by setNormalApprox are marginals of the joint normal", "statement": "For factors with any scopes, any mean vector and any symmetric positive definite precision matrix whose nonzero off-diagonal entries belong to pairs of items that share a factor, after ClusterGraph::setNormalApprox returns, the normal approximation of every cluster and of every edge is the marginal of the joint normal on its items: its mean is the corresponding part of the mean vector, its variance matrix the corresponding part of the inverse of the whole precision matrix, and its precision is the inverse of that. A second call of setNormalApprox leaves the normal approximations of the clusters as the first call set them.", "quantifier": "all factor graphs, precision matrices and means, exact arithmetic; every routine that inverts invertible matrices", "why_tests_cant": "The precision submatrices of the clusters are not the marginal precisions; only the two message passes (and dividing by the old edge normals in the right order) make them so, on every tree shape.", "anchors": ["src/ClusterGraph.cpp:ClusterGraph::setNormalApprox", "src/ClusterGraph.cpp:ClusterGraph::passMessage", "src/NormalBelief.cpp:NormalBelief::operator*=", "src/NormalBelief.cpp:NormalBelief::operator/=", "src/NormalBelief.cpp:NormalBelief::margin", "src/MultiNormal.cpp:MultiNormal::computeMarginal", "src/MultiNormal.cpp:MultiNormal::multiplySubsetInternal"]}
{"id": "C55", "title": "Normal densities are normalized", "statement": "Every MultiNormal made from a mean and a precision, from derivatives, as a product or quotient, or as a marginal, whose precision is symmetric and positive definite, has exp(evaluate) with integral exp(d * delta) over d-dimensional space, where delta is the difference between log sqrt(2 pi) and the constant in initializeNormalizer (between 7e-17 and 8e-17): one up to rounding. This holds in particular for the normal approximations of all clusters and edges after setNormalApprox.", "quantifier": "all dimensions, means, precisions; every routine for determinants that respects row operations and triangular matrices", "why_tests_cant": "An integral over a space of any dimension; a wrong sign or factor of the log determinant or of the constant shows only in the absolute value of a log density, which ratios cancel.", "anchors": ["src/MultiNormal.cpp:MultiNormal::initializeNormalizer", "src/MultiNormal.cpp:MultiNormal::evaluate", "src/MultiNormal.cpp:MultiNormal::setPrecision", "src/MultiNormal.cpp:MultiNormal::setVariance", "src/MultiNormal.cpp:MultiNormal::multiplySubsetInternal"]}
{"id": "C56", "title": "The sequential reduction loglikelihood is the log of the integral of the joint density", "statement": "For a regular model frame in which every observation has a random effect, binomial family and logit or probit link: if find_lfun_SR succeeds and the function it returns gives a value at a parameter vector, then the vector has as many components as there are variance parameters and fixed effects, the value is at most half the Laplace value, and if every one-variable integration is exact the value is the log of the integral over all random effects of the joint density of observations and standard normal random effects, at the theta and beta that the vector consists of, up to the rounding of the constant log sqrt(2 pi). Other families and links are rejected with an error.", "quantifier": "all model frames, parameters, tree shapes, all ways of integrating exactly; exact arithmetic", "why_tests_cant": "It composes splitting the frame, the factors, the elimination order, message passing and the split of the parameters; tests compare a few models with known likelihoods, to a tolerance that hides a missing factor or a swapped parameter in others.", "anchors": ["R/loglikelihood.R:find_lfun_SR", "R/utility.R:check_modfr_SR", "R/splitframe.R:find_factorization_terms", "src/GLMMBelief.cpp:GLMMBelief::evaluate", "src/NormalBelief.cpp:NormalBelief::evaluate", "src/ClusterGraph.cpp:computeLogNormalizingConstant"]}
{"id": "C57", "title": "The only ways the sequential reduction loglikelihood can fail", "statement": "On a cluster graph made from factors with distinct items whose derivatives have the right sizes, with a mean that has a component for every item, and if integrating an argument out of a function that can be evaluated always works, computeLogNormalizingConstant returns a value or throws the error of passMessage, and it throws only if std::isnormal rejects some number. The function returned by find_lfun_SR fails only for that reason, because of the length of the parameter vector, or because the value exceeds half the Laplace value. With one variance parameter, find_lfun_SR itself fails exactly if width^(2 nSL) exceeds 5e5. Since std::isnormal is false for zero, a product of factors that are one everywhere is rejected.", "quantifier": "all factor lists, normal approximations, model frames, parameters; counterexample for the value zero", "why_tests_cant": "Absence of out-of-bounds reads and of empty clusters on every tree shape cannot be shown by running some of them.", "anchors": ["src/ClusterGraph.cpp:computeLogNormalizingConstant", "src/ClusterGraph.cpp:ClusterGraph::passMessage", "src/MixedContinuousBelief.cpp:MixedContinuousBelief::isProper", "R/loglikelihood.R:find_lfun_SR"]}
{"id": "C58", "title": "Integration errors add up and are not magnified", "statement": "If LI is monotone and lets additive constants come out (as the logarithm of a positive linear functional of exp o f does), and every one-variable integral the code stores is off by an amount between lo and hi at every point, then the log normalizing constant returned by computeLogNormalizingConstant is off from the exact iterated integral of the product of the factors by an amount between N lo and N hi, N the number of items. For the loglikelihood found by sequential reduction the same holds with q, the number of random effects, for N. In particular if no integral is underestimated then neither is the result, and the error does not depend on the width or the shape of the tree.", "quantifier": "all lists of factors, tree shapes, normal approximations, model frames, parameters and all inexact integrators with a bounded error", "why_tests_cant": "A bound on the total error for every tree; messages multiplied in twice, or an old message not divided out, show up in tests only as a slightly larger error.", "anchors": ["src/ClusterGraph.cpp:computeLogNormalizingConstant", "src/ClusterGraph.cpp:ClusterGraph::passMessage", "src/MixedContinuousBelief.cpp:MixedContinuousBelief::integrate", "R/loglikelihood.R:find_lfun_SR"]}
{"id": "C59", "title": "Greedy elimination finds the smallest width up to three", "statement": "The clusters that initializeInternal makes form a junction tree (running intersection property) covering the scopes of the factors, and if there is any junction tree covering them whose bags have at most w <= 3 items, the width of the cluster graph is at most w; so the width, which decides the cost and whether find_lfun_SR stops with \"too complex\", is the smallest possible whenever that is at most three (trees, cycles, series-parallel structures). It is not in general: six items joined in ten pairs have a junction tree with bags of four items and are given width 5. A frame with one variance parameter whose random effects have a junction tree with bags of w <= 3 items is therefore accepted if w^(2 nSL) <= 500000.", "quantifier": "all lists of factors and all junction trees for them; all regular model frames", "why_tests_cant": "Quantifies over all junction trees of all factor structures; a test can compare with brute force only for small graphs.", "anchors": ["src/ClusterGraph.cpp:ClusterGraph::initializeInternal", "src/Graph.cpp:Graph::findNeighbours", "src/ClusterGraph.cpp:ClusterGraph::width", "R/loglikelihood.R:find_lfun_SR"]}
{"id": "C60", "title": "The optimizer never ends below its starting value", "statement": "If optim returns a point where the function is finite and not larger than where it started (the contract of BFGS), then an estimate returned by optimize_glmm has one component per variance parameter and fixed effect, its variance parameters are between -5 and 5, the loglikelihood is defined there, and it is at least the loglikelihood at the starting values (0.5 and 0, or the previous fit). An error of the loglikelihood at the starting values is passed on, and there is no estimate if they are outside the box. A previous fit with the wrong number of estimates is not rejected but recycled.", "quantifier": "all loglikelihood functions (also failing ones), numbers of parameters, previous fits, all optimizers that descend", "why_tests_cant": "The penalty d0 + 100 outside the box, Inf on errors and the shift of the parameters interact; which points an optimizer visits in a test is not under control of the test.", "anchors": ["R/optimization.R:optimize_glmm"]}
{"id": "C61", "title": "Reported standard errors are right, reported covariances are not", "statement": "With an exact Hessian and inverse, optimize_glmm returns twice the inverse of the Hessian of -2 loglikelihood at its estimate. If the loglikelihood does not depend on the signs of the variance parameters (C45), then the fit reported by glmm, with absolute values of these, has the same loglikelihood, and the reported standard errors, z-statistics and p-values are those belonging to the reported estimates. The reported covariances are right only up to sign: glmm changes the sign of an estimate but not of its covariances, and an optimization that ends at a negative variance parameter gives a covariance of the wrong sign.", "quantifier": "all loglikelihood functions that do not depend on the signs, all estimates; counterexample with one variance parameter and one fixed effect", "why_tests_cant": "The optimizer rarely crosses to negative variance parameters in tests, and no test looks at the off-diagonal of vcov.", "anchors": ["R/optimization.R:optimize_glmm", "R/fit.R:glmm", "R/glmmFit.R:summary.glmmFit"]}
{"id": "C62", "title": "coef and vcov list every parameter once", "statement": "For a fit with at least one variance parameter and one fixed effect and as many names as parameters, coef returns all estimates, those of the random effects first with RE before their names, and vcov returns Sigma with the same names. Without fixed effects, (p_theta+1):p counts downwards: coef has two more entries, a missing value and the last estimate once more, and vcov stops with an error.", "quantifier": "all fits and all numbers of parameters", "why_tests_cant": "Any number of parameters and names; the case without fixed effects occurs only with subformulas that provide them and is not tested.", "anchors": ["R/glmmFit.R:coef_random.glmmFit", "R/glmmFit.R:coef_fixed.glmmFit", "R/glmmFit.R:coef.glmmFit", "R/glmmFit.R:vcov.glmmFit"]}
{"id": "C63", "title": "With one quadrature point sequential reduction is Laplace's approximation", "statement": "With one point of quadrature, any basis level from 1 to 25 and any model frame as in C56, if the function returned by find_lfun_SR gives a value v at a parameter vector for which compute_normal_approx supplied mean mu and precision Q (symmetric, positive definite, zero for pairs of random effects that share no factor), then v = log p(y, mu) + q/2 log(2 pi) - 1/2 log det Q, Laplace's approximation with that mode and Hessian, up to the errors of the literals for sqrt(pi) and log sqrt(2 pi), whatever the elimination order, the number of random effects and the width. This needs the logarithm of the normalizing constant of every marginal normal to be non-zero, since MultiNormal::isProper tests that: for one random effect whose precision is 2 pi the code uses the precision 1 and the value is off by log sqrt(2 pi).", "quantifier": "all model frames, parameters, modes and precisions, basis levels 1..25, elimination orders, linear algebra routines meeting their contracts; exact arithmetic", "why_tests_cant": "The equality goes through the calibration of the normal approximation, a Schur complement per integrated random effect, the stored functions and the quadrature; tests compare only a few fits, to a tolerance. The vignette says nSL = 0 gives Laplace.", "anchors": ["src/IntegratedFunction.cpp:IntegratedFunction::evaluate", "src/MixedContinuousBelief.cpp:MixedContinuousBelief::integrate", "src/SparseStore.cpp:SparseStore::evaluate", "src/ClusterGraph.cpp:computeLogNormalizingConstant", "src/MultiNormal.cpp:MultiNormal::isProper", "R/loglikelihood.R:find_lfun_SR"]}
{"id": "C64", "title": "For two-level models sequential reduction is adaptive Gauss-Hermite quadrature", "statement": "If no factor involves more than one random effect, the log joint density is a sum of a constant and functions G_e of single random effects, and for every way of writing it so the value of the function returned by find_lfun_SR is that constant plus the sum over the random effects of the logarithm of the n-point Gauss-Hermite sum for G_e with nodes mu_e + sqrt(2) z_i / sqrt(Q_ee) (up to the error of the literal for log sqrt(2 pi)), for any n >= 1 and whatever the basis level.", "quantifier": "all model frames with one random effect per factor, parameters, modes and precisions, numbers of points, basis levels 1..25; exact arithmetic", "why_tests_cant": "The vignette claims the equivalence for all two-level models; tests compare fits of a few.", "anchors": ["src/IntegratedFunction.cpp:IntegratedFunction::evaluate", "src/QuadratureRule.cpp:QuadratureRule::initialize", "src/MixedContinuousBelief.cpp:MixedContinuousBelief::integrate", "src/ClusterGraph.cpp:computeLogNormalizingConstant", "R/loglikelihood.R:find_lfun_SR"]}
{"id": "C65", "title": "The sequential reduction loglikelihood fails only by its own checks", "statement": "With the basis of levels 1 to 25, any quadrature rule and any linear algebra, at any parameter vector of the right length and any mean of the right length, the function returned by find_lfun_SR for a model frame as in C56 returns a value, or stops because the value exceeds half the Laplace value, or because std::isnormal is false for some number; this holds whatever vectors and matrices stored functions give at points so far from the knots (2^32 bandwidths) that the conversion to unsigned int in BasisLevel is undefined. If the linear algebra returns matrices of the right sizes, every integral the program asks for is of a function that is defined at every vector of the right length and has derivatives of the right sizes, over an existing component, with a normal of the right dimension.", "quantifier": "all model frames, parameters, normal approximations, quadrature rules, linear algebra routines", "why_tests_cant": "Every tree shape, every intermediate function and grid.", "anchors": ["src/ClusterGraph.cpp:computeLogNormalizingConstant", "src/MixedContinuousBelief.cpp:MixedContinuousBelief::integrate", "src/SparseStore.cpp:SparseStore::initializeFromNormal", "R/loglikelihood.R:find_lfun_SR"]}
{"id": "C66", "title": "The complexity check of find_lfun_SR bounds every sparse grid at every parameter value", "statement": "The clusters, separators, edges and width of a cluster graph depend only on the scopes of the factors, not on their values, so the graph built when find_lfun_SR is called is of the same shape as the graph at each parameter vector. Therefore, once the check width^(2 nSL) <= 5e5 has passed, at no parameter vector does the loglikelihood store a function on a sparse grid of more than 500000 points: C65 still holds if that were an error.", "quantifier": "all lists of factors with the same scopes; all model frames, parameters, levels 1 to 25", "why_tests_cant": "The check is done once on the structure; grids are built at every parameter value.", "anchors": ["R/loglikelihood.R:find_lfun_SR", "src/ClusterGraph.cpp:width", "src/ClusterGraph.cpp:initializeInternal", "src/counting.cpp:findNumGridPoints"]}
{"id": "C67", "title": "The indices of a substituted variable match the rows of its data", "statement": "When find_indices_subform returns values for the indices of a substituted variable, and the names of the indices are not in the data, nothing is indexed within a subscript of the subformula, and numbers used as indices start at 1, are within the covariates and (without covariates) have no gaps, then the names are the subscripts of the variable in the subformula in their order, the data are unchanged, and for every use of the variable in the expression the flat index from flatten_vars is, for each observation, the number of the row of expand.grid(indices) whose labels are those of the observation (levels of factors, or numbers). The conditions are needed: numbers with a gap get the row of other labels; a covariate is only taken into account if the index is at the same position in it as in the variable; an index that is itself in the data ends in an error if it is the first and otherwise gets the values of the index before it; a covariate shorter than the levels passes if another is long enough.", "quantifier": "all subformulas, expressions, data, numbers of indices and observations", "why_tests_cant": "All shapes of expressions, factors and numeric indices, with any number of levels.", "anchors": ["R/indexing.R:find_indices_subform", "R/indexing.R:find_index_i", "R/indexing.R:find_indices", "R/indexing.R:find_vars_with_index", "R/utility.R:find_dim_in_dir", "R/indexing.R:flatten_vars"]}
{"id": "C68", "title": "Level 0 of sequential reduction is Laplace whatever the undefined conversions give", "statement": "With nSL = 0, documented as Laplace, the basis divides 0 by 0 and converts the result to int, which is undefined. Whatever integers these conversions and the conversion of an infinity to unsigned int deliver, nothing else undefined happens: the basis is the constant function 1 with knot 0 and zero derivatives, find_lfun_SR at this level (one quadrature point) returns a value or stops by its own checks, and the value is the Laplace approximation as in C63. At levels at which all conversions are defined the same model gives the results of the model with undefined behaviour.", "quantifier": "all results of undefined conversions, model frames, parameters, modes and precisions", "why_tests_cant": "A test at level 0 sees what one compiler and processor do.", "anchors": ["src/BasisLevel.cpp:initializeBandwidth", "src/BasisLevel.cpp:initializeKnots", "src/BasisLevel.cpp:initializeGridIds", "src/BasisLevel.cpp:findIntervalId", "src/BasisLevel.cpp:evaluate", "src/Basis.cpp:Basis", "R/loglikelihood.R:find_lfun_SR"]}
{"id": "C69", "title": "Offsets are ignored except by lme4", "statement": "glmm documents an offset as a known component of the linear predictor. The loglikelihood by sequential reduction (with exact integrals), the integrand of importance sampling and the second-order term of the Laplace approximation are those of the model with the offsets added to the linear predictor if there is no offset or all offsets are zero; otherwise they may differ from it, for the second-order term even where the mode and the second derivatives are those of the model with the offsets: none of the three reads the offset.", "quantifier": "all model frames, offsets, parameters; the refutations are single cases", "why_tests_cant": "The only test with an offset uses the Laplace approximation of lme4.", "anchors": ["R/splitframe.R:find_local_term", "R/IS.R:find_log_integrand", "R/IS.R:find_XBeta", "R/hol.R:find_epsilon_1", "R/loglikelihood.R:find_lfun_SR"]}
{"id": "C70", "title": "Responses with two columns are accepted and never evaluated", "statement": "For a binomial response given as two columns, the factorization terms are made without an error and contain every observation, but no factor with at least one observation can be evaluated at any parameters and random effects: the response passed to the C++ code has two numbers per observation and the weights one. Neither the second-order term nor (for more than one observation or draw) the importance sampling integrand has a value.", "quantifier": "all model frames with a two-column response, parameters, random effects", "why_tests_cant": "Undefined behaviour of Eigen with assertions off gives some number in a test.", "anchors": ["R/splitframe.R:find_local_term", "R/splitframe.R:find_factorization_terms", "src/Binomial.cpp:Binomial::evaluate", "R/hol.R:find_epsilon_1", "R/IS.R:find_log_integrand"]}
{"id": "C71", "title": "The loglikelihood at reported estimates is that at the estimates found, except for importance sampling", "statement": "When all bounds are zero glmm reports absolute values of the variance parameters that the optimizer found. This amounts to a change of sign of some random effects. At two parameter vectors related in this way, sequential reduction has the same value: with any exact integral that is symmetric, with one quadrature point (the Laplace approximation), and with any number of Gauss-Hermite points for two-level models, the modes and precisions changing with the random effects. So has the second-order term. Importance sampling has at one vector the value that it has at the other with the signs of the draws changed, and since it keeps one set of draws the values may differ.", "quantifier": "all model frames, parameters, signs, modes, precisions, draws; the refutation is a single case", "why_tests_cant": "Fits usually end at positive estimates, so a test does not see the change of sign.", "anchors": ["R/fit.R:glmm", "R/loglikelihood.R:find_lfun_SR", "R/IS.R:find_lfun_IS", "R/IS.R:find_log_weights", "R/hol.R:find_epsilon_1"]}
{"id": "C72", "title": "Covariates of a flattened subformula have in each row the elements at the indices of the row", "statement": "For a subformula with several indices, flatten_formula turns x[i, j, ...] into x[cbind(i, j, ...)] and evaluates it on the rows of expand.grid. If subscripts are applied to arrays with as many dimensions, lie within the dimensions and contain no further multiple subscripts, then the flattened right side has in the row with indices t the value of the original at t, for any functions that work element by element and constants recycled. The left side is accepted exactly if it is a name with or without subscripts. Without the conditions it fails: multiple subscripts within multiple subscripts, or multiple subscripts in a subformula with one index, give more values than rows.", "quantifier": "all expressions, arrays, numbers and lengths of indices; the refutations are single cases", "why_tests_cant": "All shapes of expressions and arrays.", "anchors": ["R/indexing.R:matrix_indexing", "R/indexing.R:flatten_formula", "R/subformula.R:drop_index", "R/subformula.R:find_subvar", "R/subformula.R:parse_sub"]}
{"id": "C73", "title": "A formula with a Sub() term loses its intercept, its offsets and, with random effects outside Sub(), its fixed effects", "statement": "split_formula returns the expressions in the Sub() terms in their order and a formula for the rest. A formula without Sub() is returned unchanged. If there are Sub() terms and no random-effects term outside them, or at most one term outside, the rest has exactly the terms outside; but it never has an intercept or an offset, whatever the formula says. If there is a random-effects term outside and at least one other term, the rest has no fixed effects at all and a single random-effects term: the labels are pasted together with + and read again, and the bar binds weaker than +, so that x + (1 | g) becomes (x + 1 | g).", "quantifier": "all formulas whose constants are 0 and 1, without Sub() in interactions", "why_tests_cant": "All formulas in tests with Sub() start with 0 + and have at most one other term.", "anchors": ["R/subformula.R:split_formula", "R/subformula.R:find_subexpr", "R/utility.R:fixFormulaObject"]}
{"id": "C74", "title": "A Sub() term adds to the linear predictor its value with the variable replaced by the linear predictor of the subformula", "statement": "If find_modfr_glmm returns a frame for a formula with Sub() terms, its linear predictor is that of the formula without Sub() terms plus, for each subformula, the value of the expression in its Sub() term with the variable standing for the array of linear predictors of the subformula; fixed effects, variance parameters and random effects are in the order of the formula and then the subformulas, response and weights are those of the formula. If the subformulas have different variables each Sub() term belongs to exactly one subformula. In the row with indices t the linear predictor of a subformula is made from the values of its covariates at t. A subformula whose variable is in no Sub() term is an error, though only a warning is intended; but without any Sub() term subformulas are ignored, and two subformulas of the same variable are accepted with the Sub() term counted twice.", "quantifier": "all formulas, numbers of subformulas, data, parameters and random effects, with expressions that C41 and C72 are about; any frames that lme4 makes of the correct size", "why_tests_cant": "All shapes of formulas and expressions; tests compare with a few fits.", "anchors": ["R/subformula.R:find_modfr_glmm", "R/subformula.R:parse_sub", "R/subformula.R:match_subform_subexpr", "R/subformula.R:add_subexpr", "R/model_frames.R:attach_subframes"]}
{"id": "C75", "title": "The reflected centre makes integrals of normal beliefs too small, unless the items are independent", "statement": "For a normal belief (the logarithm is a quadratic function and the normal approximation is exact) integrated over one item with any number q of quadrature points: apart from the constant used for sqrt(pi) the result is at most the logarithm of the integral, with equality exactly where the conditional mean of the item given the others equals its mean; if e is the distance between the two and P the conditional precision, the error is at most 4|e|sqrt((q-1)P) - 2e^2 P, so it has no lower bound as e grows, and it is -2e^2 P with one point. Integrated over all items one after the other, even with a storage that loses nothing, the result is at most the logarithm of the integral and for two or more points equal to it exactly if the precision matrix is diagonal. (Gauss-Hermite quadrature with the correct centre would be exact here for every number of points.)", "quantifier": "all dimensions, means, positive definite precisions, numbers of quadrature points, and values of the other items; exact arithmetic", "why_tests_cant": "Whether the error has a sign and vanishes only for independent items is a statement about all normal beliefs and all numbers of points.", "anchors": ["src/IntegratedFunction.cpp:findConditionalMean", "src/IntegratedFunction.cpp:evaluate", "src/MixedContinuousBelief.cpp:computeLogNormalizingConstant", "src/QuadratureRule.cpp:findHermiteJacobi"]}
{"id": "C76", "title": "glmm: what is accepted, and what the fit that is returned satisfies", "statement": "(1) check_weights accepts weights exactly if all of them are integers up to 2^-26. (2) If glmm returns anything, the weights are such, the method is one known method, the family is not gaussian if the formula has a random effect outside of Sub(), it is binomial with logit or probit link for method SR, the order of the Laplace approximation is 1, or 2 and the family binomial with logit link, and the check of the approximation was not asked for unless the family is binomial. (3) A fit has the function that find_lfun_glmm returns for the same arguments; its estimates are the parameters found by the optimizer with the absolute values of those of the random effects, which are at most 5, the loglikelihood at the parameters found is not smaller than where the fit started, and Sigma is missing exactly if an estimate is above 4.9. (4) With methods Laplace and AGQ the loglikelihood at the estimates reported is not smaller than where the fit started. (5) Options that do not belong to the method have no influence on the result. (6) The functions of the methods: minus half the deviance of lme4 for order 1 and for AGQ (15 points by default), importance sampling with 1000 draws by default, sequential reduction with level k, 3 by default, and 2^(k+1)-1 points. (7) The divergence is computed exactly for method Laplace with order 1 when the check is asked for; the warning is given exactly if it exceeds the threshold, by default 0.1; it is half the quadratic form of Sigma at the gradient of the difference between the loglikelihoods of orders two and one where the optimizer stopped. (8) Refuted: (4) for importance sampling; that asking for the check keeps a fit possible; that a gaussian family is refused for every model with random effects.", "quantifier": "all formulas, subformulas, data, families, methods, lists of options, weights, previous fits and frames with any numbers of parameters, and all functions of lme4, stats, numDeriv and of the C++ core; (4) for those for which mode, precision and deviance change with signs as the model does; exact arithmetic", "why_tests_cant": "Whether every combination of method, options and family is either refused or gives a consistent fit is a statement about all of the arguments of the main function.", "anchors": ["R/fit.R:glmm", "R/loglikelihood.R:find_lfun_glmm", "R/loglikelihood.R:find_lfun_glmm_internal", "R/laplace.R:find_lfun_Laplace", "R/utility.R:check_weights", "R/utility.R:has_re", "R/model_frames.R:parse_formula"]}
{"id": "C77", "title": "The divergence with second derivatives is that of normal distributions", "statement": "find_laplace_divergence with use_second_derivatives = TRUE, for estimates m with covariance matrix V, and gradient delta and second derivatives gamma of the difference between the loglikelihoods of orders two and one: (1) the result is the Kullback-Leibler divergence of N(m2, V2) from N(m, V), the expectation under the first of the logarithm of the ratio of the densities, where V2 is the inverse of V^-1 - gamma and m2 = m + V2 delta. (2) Up to a constant, the logarithm of the density of N(m2, V2) is that of N(m, V) plus the quadratic function with gradient delta and second derivatives gamma at m; m2, which is estim_2_1 in the code, is where this sum is largest. (3) The result is not negative, and zero exactly if delta and gamma are zero. (4) If gamma is zero it is the divergence without second derivatives.", "quantifier": "all numbers of parameters, gradients, second derivatives and positive definite matrices V for which V^-1 - gamma is positive definite; all expectations with the mean and covariance matrix of N(m2, V2); all inversions and determinants that are right; exact arithmetic", "why_tests_cant": "The formula has matrices of any size; that a trace, a determinant or a transposition is in the wrong place is invisible for one parameter or for diagonal matrices.", "anchors": ["R/hol.R:find_laplace_divergence", "R/hol.R:find_gamma_1", "R/hol.R:find_delta_1"]}
{"id": "C78", "title": "Exactly the linear expressions are accepted", "statement": "parse_sub, with the subexpression of a Sub() term: (1) every expression made of subscripts of the variable (one name of a vector of indices within the dimensions for each dimension), further subscripts within the rows, sums and differences with equal numbers of rows, products with a single number, or where there are no random effects with one number for each row, and quotients by such numbers, given as names or expressions without numbers, is accepted; the frame has as many rows as the expression, and its linear predictor is the linear function of the linear predictor of the subformula that the expression stands for, for all coefficients. (2) If the variable occurs and no error is raised, then the expression is made of subscripts, sums, differences, products and quotients with the variable on one side, and the value is a model frame. (3) Refuted for parentheses around the variable and for a sign before it: s * (a[i] - a[j]) and -a[i] are refused, though they are linear.", "quantifier": "all expressions, data, model frames and coefficients; in (1) with joined names of indices that do not clash; in (2) with data that have no column with the name of the variable and expressions that do not use it as a function", "why_tests_cant": "The language of expressions is infinite, and that an expression is accepted depends on sizes of all parts.", "anchors": ["R/modify_subexpr.R:modify_subexpr", "R/modify_subexpr.R:find_sub_status", "R/modify_subexpr.R:extract_to_flatten", "R/subformula.R:parse_sub", "R/model_frames.R:`*fr`", "R/model_frames.R:`-fr`"]}
{"id": "C79", "title": "What is printed of a fit has the right labels", "statement": "print.glmmFit and print.summaryGlmmFit: (1) if every random term has one component, no group has two terms and there are fixed effects, every parameter of the random effects is printed once, beside its own group and component, every group with its own number of levels, and every fixed effect beside its name; the summary has the standard errors, the square roots of the diagonal of Sigma, and for the fixed effects |estimate / standard error| and twice the upper normal tail of it; all of these are missing if Sigma is a matrix of NAs, because a parameter is too large. (2) Refuted for a term with c > 1 components, which has c (c + 1) / 2 parameters: for even c printing stops with an error, for odd c the parameter of the second component is printed as that of the first, and in coef it has no name. (3) Refuted for a group with two terms followed by another group: the number of levels of the second group is printed for the first one, and NA for the second. (4) Refuted without fixed effects: NA and the last parameter of the random effects are printed as fixed effects.", "quantifier": "all fits, numbers of terms, components, parameters and levels; the factors of lme4 are the groups in the order in which they are first seen", "why_tests_cant": "The labels of a table of any number of terms depend on how three vectors are recycled; examples with random intercepts do not show it.", "anchors": ["R/glmmFit.R:print.glmmFit", "R/glmmFit.R:print.summaryGlmmFit", "R/glmmFit.R:summary.glmmFit", "R/glmmFit.R:coef_random.glmmFit", "R/glmmFit.R:coef_fixed.glmmFit"]}
{"id": "C80", "title": "Sequential reduction when some observations have no random effect", "statement": "If some but not all observations have no random effect, the factors are made without an error, and with exact integrals the loglikelihood of find_lfun_SR is that of another model: observation o only keeps the random effects of observation s(o), the first observation that has all the random effects of the o-th observation with random effects (or, if there is no o-th one, the first observation with random effects). This is the right model if the random effects of every o are among those of s(o), in particular if the observations without random effects come last. One such observation before the others can make the loglikelihood too large.", "quantifier": "all model frames with a Lambdat of triangular blocks, parameters, links, ways of integrating exactly; counterexample", "why_tests_cant": "The positions of the observations without random effects decide which model is fitted, without any message; tests use data in which every observation has a random effect.", "anchors": ["R/splitframe.R:find_active", "R/splitframe.R:add_obs", "R/splitframe.R:add_obs_C", "R/splitframe.R:find_factorization_terms", "R/loglikelihood.R:find_lfun_SR"]}
{"id": "C81", "title": "A factorization written to a file can be read back", "statement": "If the response is a numerical vector, the file made by save_factorization_to_file has one line for each factor, from which the factors that find_factorization_terms passes to C++ are got back in the same order: items, X, Zt, the entries of Lambdat, Lind, responses and weights, with every number rounded as in its text form, and exactly if no number is changed by that rounding. If the response is a factor, the file has words for the responses and cannot be read as numbers. From the file made by save_normal the mean and the precision are got back, with their numbers rounded.", "quantifier": "all model frames of the form made by lme4, with any ways of writing numbers as words; all means and sparse precisions", "why_tests_cant": "The line has no separators between its parts, so that one wrong count or order shifts everything after it; the functions are not exported and no test reads a file back.", "anchors": ["R/splitframe.R:lmodfr_to_oneline", "R/splitframe.R:save_factorization_to_file", "R/splitframe.R:save_normal", "R/splitframe.R:find_factorization_terms"]}
{"id": "C82", "title": "The normal approximation has the precision matrix that lme4 factorized", "statement": "If lme4 has factorized a matrix A with its rows and columns permuted, P A P^T = L L^T with the permutation matrix P, the precision returned by compute_normal_approx has the same entries as A, at the same rows and columns. It is symmetric, and positive definite if L is lower triangular without zeros on the diagonal. The deviance is minus twice the returned loglikelihood, and the mean is the one held by lme4.", "quantifier": "all numbers of random effects, all permutations, all matrices A and factors L", "why_tests_cant": "If the permutation is not undone, or undone the wrong way round, the result is right whenever the permutation is the identity or its own inverse, as it is in small examples.", "anchors": ["R/loglikelihood.R:compute_normal_approx"]}
{"id": "C83", "title": "subset_dim selects in the direction it is asked for", "statement": "For an array x with dimensions d_1, ..., d_m, a direction i from 1 to m and indices between 1 and d_i, subset_dim(x, i, indices) has the dimensions of x with d_i replaced by the number of indices, and its element at t is the element of x at t with t_i replaced by the t_i-th of the indices; dimensions of size 1 are kept. The text that is pasted together and parsed to this end has a comma for each other direction, on the right side of the word indices. For a vector and i = 1, and for an array with one dimension, the elements with these indices are returned, NA beyond the end. A direction larger than the number of dimensions is an error, and for two or more dimensions so is an index that is too large.", "quantifier": "all arrays with any number of dimensions, including empty ones, all directions and all vectors of positive indices", "why_tests_cant": "The expression is built as a string whose commas depend on the number of dimensions and the direction; one comma too few gives an error or, for two dimensions, silently the other direction, and tests use two or three dimensions.", "anchors": ["R/utility.R:subset_dim"]}
{"id": "C84", "title": "The state that lme4 keeps between evaluations does not show in a fit", "statement": "The deviance function of lme4 keeps mode and factor of the last evaluation in its environment, where compute_normal_approx reads them, and updateGlmerDevfun changes the environment of a function in place. Suppose that a new environment, as long as it is only changed by evaluations, gives a deviance, a mode and a precision that depend on the argument alone, after successful and failed evaluations alike. Then glmm, whose calls to the environment are made by the loglikelihood of the chosen method, by the two evaluations at the starting values, by an optimizer and, for the check of the Laplace approximation, by numerical differentiation, in whatever order these ask for values, has the result of the program in which they are functions of the parameters (the one C76 is about); and the loglikelihood kept with the fit has the values of the pure one after any evaluations. The same holds for find_lfun_glmm. It does not hold for two loglikelihoods made from one deviance function: setting up adaptive quadrature changes the Laplace approximation made before.", "quantifier": "all methods, options, formulas and data, all optimizers and numerical derivatives as adaptive sequences of questions, all sequences of later evaluations", "why_tests_cant": "Reading the state before the evaluation, or after one at other parameters, gives values that are nearly right near the optimum, and right if the function is evaluated twice at one point, as tests of a single value do.", "anchors": ["R/loglikelihood.R:compute_normal_approx", "R/loglikelihood.R:find_lfun_glmm_internal", "R/loglikelihood.R:find_lfun_AGQ", "R/fit.R:glmm", "R/optimization.R:optimize_glmm", "R/hol.R:find_epsilon_1", "R/laplace.R:find_lfun_Laplace", "R/IS.R:find_lfun_IS"]}
{"id": "C85", "title": "Both signs of a coordinate are treated alike by the sparse grid", "statement": "The knots of each level are symmetric about zero, and the basis function of the knot that mirrors another one is the mirror image of its basis function. So if the signs of some arguments of a function are changed, the sparse grid built for the new function gives, where it is evaluated, the value of the first grid at the point with these signs changed, its gradient with these signs changed and its matrix of second derivatives with the signs of these rows and columns changed, at the bound of the interpolated function as below it. It holds for all coordinates of at most 2^31 bandwidths.", "quantifier": "all levels from 1 to 25, all numbers of arguments, all functions, all choices of signs, all points in the range", "why_tests_cant": "Rounding knots to the grid towards minus infinity instead of towards zero, or one end condition of the splines that differs from the other, gives a grid that still interpolates exactly at its own points. The difference only shows between two grids of related functions.", "anchors": ["src/BasisLevel.cpp:initializeKnots", "src/BasisLevel.cpp:evaluate", "src/SparseGrid.cpp:SparseGrid::hierarchize", "src/SparseGrid.cpp:SparseGrid::interpolate", "src/SparseGrid.cpp:SparseGrid::interpolateDerivative", "src/SparseGrid.cpp:SparseGrid::interpolateSecondDerivative"]}
{"id": "C86", "title": "Both signs of an effect are treated alike by one step of the sequential reduction", "statement": "One step of the sequential reduction integrates one random effect out of a function of several effects, by quadrature scaled to the conditional distribution that a normal approximation gives, and stores the result, less a quadratic function, on a sparse grid scaled by the normal approximation of the effects that are left. If the signs of some effects are changed in the function, its gradient, its second derivatives and the normal approximation, then the integral and its two derivatives change in the same way, and so do the value and the two derivatives that the store reports. In particular the result does not change at all when only the sign of the effect that is integrated out does. It holds for points whose scaled coordinates are at most 2^31 bandwidths, and where the quadratic function is determined (the difference of the second derivatives is invertible or zero).", "quantifier": "all functions with their derivatives, all numbers of effects and all choices of the one to integrate out, all choices of signs, all numbers of quadrature points, all levels from 1 to 25, all points in the range", "why_tests_cant": "No pair of likelihoods that a test compares shows which of the many steps, a sign in the conditional mean, in a cross derivative or in the stored quadratic, makes them differ, and errors of this kind cancel when effects are independent.", "anchors": ["src/IntegratedFunction.cpp:IntegratedFunction::findConditionalMean", "src/IntegratedFunction.cpp:IntegratedFunction::integrateNoLog", "src/IntegratedFunction.cpp:IntegratedFunction::integrateDerivativeNoLog", "src/IntegratedFunction.cpp:IntegratedFunction::integrateSecondDerivativeNoLog", "src/SparseStore.cpp:SparseStore::initializeFromNormal", "src/SparseGridTransform.cpp:SparseGridTransform::interpolate", "src/Quadratic.cpp:Quadratic::initializeFromDerivatives", "src/MixedContinuousBelief.cpp:MixedContinuousBelief::integrate"]}
{"id": "C87", "title": "The heading of a printed fit tells which approximation was used", "statement": "Every fit that glmm returns is printed with the name of its likelihood approximation and the value of the option of its method that sets how accurate it is: the one that was given, or the documented default, whatever other options were given. The heading is unambiguous: method, value, family, link, formula and subformulas can be read from it, so two fits of a model with the same heading have the same approximation to the loglikelihood, and with the same start the same estimates.", "quantifier": "all calls of glmm that return a fit, all pairs of methods and lists of options, all families and links that are one word, all formulas that take one line and all numbers of subformulas, all texts printed after the heading", "why_tests_cant": "Tests of print compare with a stored copy for one or two fits. That no two different settings ever give the same text, with options of other methods given, repeated, or left out, is a statement about all pairs of calls.", "anchors": ["R/glmmFit.R:find_approximation_name", "R/glmmFit.R:print_subformula", "R/glmmFit.R:print.glmmFit", "R/glmmFit.R:print.summaryGlmmFit", "R/control.R:find_control_with_defaults", "R/loglikelihood.R:find_lfun_glmm_internal"]}
{"id": "C88", "title": "Progress output does not change a fit and shows what was computed", "statement": "The estimate and its variance, or the error, do not depend on verbose or on the time taken. With verbose = 0 nothing is written. With verbose = 2 the lines written are exactly the evaluations that the optimizer asks for, in order, with the parameters on their own scale and the loglikelihood that is used there: that of the model, -Inf after an error, and 50 less than at the start where a variance parameter leaves the box. With verbose = 1 there is one dot for as many evaluations as take a little more than a second, and none if the time measured is 0; larger values give neither. The end of the fit is announced if and only if the optimizer returns.", "quantifier": "all optimizers that ask for values one after the other, depending on the answers, and may fail; all loglikelihoods, including those that stop with errors; all numbers of parameters, starting values, values of verbose and times", "why_tests_cant": "Tests fit with verbose = 0, and output is never compared with the evaluations. A counter or a flag that leaks into the value, or a line written for the wrong point, shows only in a sequence of evaluations that a test does not control.", "anchors": ["R/optimization.R:optimize_glmm"]}
{"id": "C89", "title": "The options kept with a fit give the same fit again", "statement": "The list of options that glmm completes and keeps with a fit is complete: used as control again, with the same other arguments, it is kept as it is and gives the same fit, and with the model frame kept in the fit find_lfun_glmm gives its loglikelihood. Names that are not options are reported again. For every method except Laplace the second call also warns about options that the user never gave, since the first call added check_Laplace, and for sequential reduction nAGQ, to the list.", "quantifier": "all calls of glmm that return a fit, all lists of options, with repeated and unknown names, all methods", "why_tests_cant": "It needs two calls, the second with the output of the first. Tests give options by hand, and never the list of a fit, and the loglikelihood of a fit is not rebuilt from what is kept with it.", "anchors": ["R/control.R:find_control_with_defaults", "R/fit.R:glmm", "R/loglikelihood.R:find_lfun_glmm"]}
