(** C63-C66: the loglikelihood by sequential reduction with all its parts put
    together: the cluster graph, the integrals, the stored functions and the basis. *)
From Coq Require Import String List ZArith Reals.
From Verif Require Import Model.Base Model.Family Model.GLMM Model.SplitFrame Model.Vectors Model.Mixed Model.ClusterGraph Model.MultiNormal Model.Quadrature Model.SparseGrid Model.BasisLevel
  Model.LfunSR Model.Sequential Spec.Numbers Spec.FamilySpec Spec.GLMMSpec Spec.SplitSpec Spec.ISSpec Spec.MatrixSpec Spec.HermiteSpec Spec.LaplaceSpec Spec.GridSpec Spec.SplineSpec
  Spec.DensitySpec Spec.LfunSpec Spec.JointSpec Spec.SequentialSpec Spec.TreeSpec Spec.Toy
  Proofs.QuantileMain Proofs.BasisMain Proofs.DensityJoint Proofs.JointCases Proofs.LfunCases Proofs.QuadratureCases Proofs.SequentialTotal Proofs.SkeletonMain Proofs.CheckedMain Proofs.GridSizes Proofs.SequentialCases.
Import ListNotations.
Local Open Scope R_scope.

(** C63: with one point of quadrature, the value is Laplace's approximation to the
    loglikelihood at the mean and precision that were supplied, whatever the level of the
    basis and the order of elimination, up to the errors of the literals for the square
    root of pi and the logarithm of the square root of 2 pi. *)
Theorem C63_laplace : forall q inverse0 solveM L b, is_normal_quantile q -> (1 <= L <= 25)%nat ->
  (forall d A, inverts inverse0 d A) -> solves_systems solveM -> basis_new q inverse0 solveM L = Ok b ->
  forall inverse determinant isnormal solve operatorSqrt operatorInverseSqrt u,
  (forall d A, inverts inverse d A) -> determinants 1 determinant ->
  (forall d A, (0 < d)%nat -> square d A -> square d (operatorSqrt A) /\ square d (operatorInverseSqrt A)) ->
  forall es lam V, es (findHermiteJacobi 1) = (lam, V) -> eigendecomposition 1 (findHermiteJacobi 1) lam V ->
  let r := rule_initialize es 1 in
  forall fr m l P nSL s, regular fr -> no_empty fr -> (1 <= length (cs_cols (fr_Zt _ fr)))%nat -> (1 <= m)%nat ->
  (forall i, In i (fr_Lind _ fr) -> (1 <= i <= Z.of_nat m)%Z) -> inverse_link l P ->
  sequential_setup inverse determinant isnormal solve operatorSqrt operatorInverseSqrt r b u fr m "binomial" (link_name l) nSL = Ok s ->
  forall laplace pars v ll mean Q Sigma, laplace pars = (ll, mean, Q) ->
  let mu := fun e => nth (Z.to_nat e) mean 0 in
  joint_precision (map (sr_scope sparse_belief stored_items) (sr_beliefs _ s)) (effects fr) Q ->
  joint_variance (effects fr) Q Sigma -> proper_marginals determinant (effects fr) mu Sigma ->
  sequential_lfun inverse determinant isnormal solve operatorSqrt operatorInverseSqrt r b u laplace s pars = Ok v ->
  v = items_laplace (effects fr) (joint_density P fr (skipn m pars) (firstn m pars)) mu Q
      + INR (cs_rows (fr_Zt _ fr)) * (ln (sqrt (2 * PI)) - logSqrtTwoPi + ln (sqrtPi / sqrt PI)).
Proof. exact C63_main. Qed.
Print Assumptions C63_laplace.

Example C63_case : is_normal_quantile quantile /\ (forall d A, inverts some_inverse d A) /\ solves_systems some_solve /\
  (forall d A, inverts inv_all d A) /\ determinants 1 det_small /\ eigendecomposition 1 (findHermiteJacobi 1) [0] [[1]] /\
  (regular contest /\ no_empty contest) /\
  exists b s v, basis_new quantile some_inverse some_solve 3 = Ok b /\
  let r := rule_initialize one_rule 1 in
  small_setup r b contest 1 "binomial" "logit" 3 = Ok s /\ small_lfun r b (small_approx contest_Q (2 * v)) s [1; 0] = Ok v /\
  joint_precision (scopes_of s) (effects contest) contest_Q /\ joint_variance (effects contest) contest_Q contest_Sigma /\
  proper_marginals det_small (effects contest) zero_mean contest_Sigma.
Proof.
  exact (conj quantile_normal (conj some_inverse_inverts (conj some_solve_solves (conj inv_all_inverts (conj det_small_1
    (conj one_point_rule (conj contest_regular contest_case))))))).
Qed.

(** The condition on the normalizing constants is necessary: when the logarithm of one
    is zero, the code takes the normal for improper and puts the identity in place of its
    precision, and the value is not Laplace's. *)
Theorem C63_improper_refuted : exists b s v, basis_new quantile some_inverse some_solve 3 = Ok b /\
  let r := rule_initialize one_rule 1 in
  small_setup r b alone 1 "binomial" "logit" 3 = Ok s /\ small_lfun r b (alone_approx (2 * v)) s [1; 0] = Ok v /\
  joint_precision (scopes_of s) (effects alone) alone_Q /\ joint_variance (effects alone) alone_Q alone_Sigma /\
  v = items_laplace (effects alone) (joint_density logistic alone [0] [1]) (fun e => nth (Z.to_nat e) [0] 0) alone_Q
      + INR 1 * (ln (sqrt (2 * PI)) - logSqrtTwoPi + ln (sqrtPi / sqrt PI)) + logSqrtTwoPi.
Proof. exact C63_improper_main. Qed.
Print Assumptions C63_improper_refuted.

(** C64: if no factor has more than one random effect (a two-level model), the joint
    density is a sum of terms with one random effect each, and the value is the sum of
    their logarithms of integrals by adaptive Gauss-Hermite quadrature with the same rule,
    centred and scaled by the mean and precision that were supplied. *)
Theorem C64_two_level : forall q inverse0 solveM L b, is_normal_quantile q -> (1 <= L <= 25)%nat ->
  (forall d A, inverts inverse0 d A) -> solves_systems solveM -> basis_new q inverse0 solveM L = Ok b ->
  forall inverse determinant isnormal solve operatorSqrt operatorInverseSqrt u,
  (forall d A, inverts inverse d A) -> determinants 1 determinant ->
  (forall d A, (0 < d)%nat -> square d A -> square d (operatorSqrt A) /\ square d (operatorInverseSqrt A)) ->
  forall es n lam V, (0 < n)%nat -> es (findHermiteJacobi n) = (lam, V) -> eigendecomposition n (findHermiteJacobi n) lam V ->
  let r := rule_initialize es n in
  forall fr m l P nSL s, regular fr -> no_empty fr -> (1 <= length (cs_cols (fr_Zt _ fr)))%nat -> (1 <= m)%nat ->
  (forall i, In i (fr_Lind _ fr) -> (1 <= i <= Z.of_nat m)%Z) -> inverse_link l P ->
  sequential_setup inverse determinant isnormal solve operatorSqrt operatorInverseSqrt r b u fr m "binomial" (link_name l) nSL = Ok s ->
  (forall c, In c (map (sr_scope sparse_belief stored_items) (sr_beliefs _ s)) -> (length c <= 1)%nat) ->
  forall laplace pars v ll mean Q Sigma, laplace pars = (ll, mean, Q) ->
  let mu := fun e => nth (Z.to_nat e) mean 0 in
  let F := joint_density P fr (skipn m pars) (firstn m pars) in
  joint_precision (map (sr_scope sparse_belief stored_items) (sr_beliefs _ s)) (effects fr) Q ->
  joint_variance (effects fr) Q Sigma -> proper_marginals determinant (effects fr) mu Sigma ->
  sequential_lfun inverse determinant isnormal solve operatorSqrt operatorInverseSqrt r b u laplace s pars = Ok v ->
  (exists G c, forall w, F w = fold_right Rplus 0 (map (fun e => G e (w e)) (effects fr)) + c) /\
  forall G c, (forall w, F w = fold_right Rplus 0 (map (fun e => G e (w e)) (effects fr)) + c) ->
  v = fold_right Rplus 0 (map (fun e => adaptive_quadrature (qr_nodes r) (qr_weights r) (mu e) (sqrt (/ Q e e)) (G e)) (effects fr))
      + c + INR (cs_rows (fr_Zt _ fr)) * (ln (sqrt (2 * PI)) - logSqrtTwoPi).
Proof. exact C64_main. Qed.
Print Assumptions C64_two_level.

Example C64_case : eigendecomposition 2 (findHermiteJacobi 2) lam2 Q2 /\ (regular groups /\ no_empty groups) /\
  exists b s v, basis_new quantile some_inverse some_solve 3 = Ok b /\
  let r := rule_initialize two_rule 2 in
  small_setup r b groups 1 "binomial" "logit" 3 = Ok s /\ small_lfun r b (small_approx groups_Q (2 * v)) s [1; 0] = Ok v /\
  (forall c, In c (scopes_of s) -> (length c <= 1)%nat) /\
  joint_precision (scopes_of s) (effects groups) groups_Q /\ joint_variance (effects groups) groups_Q groups_Sigma /\
  proper_marginals det_small (effects groups) zero_mean groups_Sigma.
Proof. exact (conj two_point_rule (conj groups_regular groups_case)). Qed.

(** C65: with the basis of the code, any quadrature rule and any linear algebra, and
    whatever a stored function gives where reading it is undefined, the loglikelihood
    either has a value, rejected only if it exceeds half the Laplace value, or
    std::isnormal is false somewhere. *)
Theorem C65_total : forall q inverse0 solveM L b, is_normal_quantile q -> (1 <= L <= 25)%nat ->
  (forall d A, inverts inverse0 d A) -> solves_systems solveM -> basis_new q inverse0 solveM L = Ok b ->
  forall inverse determinant isnormal solve operatorSqrt operatorInverseSqrt u r,
  forall fr m l nSL s, regular fr -> no_empty fr -> (1 <= length (cs_cols (fr_Zt _ fr)))%nat -> (1 <= m)%nat ->
  (forall i, In i (fr_Lind _ fr) -> (1 <= i <= Z.of_nat m)%Z) ->
  sequential_setup inverse determinant isnormal solve operatorSqrt operatorInverseSqrt r b u fr m "binomial" (link_name l) nSL = Ok s ->
  forall (pars mean : list R) prec,
  let lfun := fun laplace => sequential_lfun inverse determinant isnormal solve operatorSqrt operatorInverseSqrt r b u laplace s pars in
  length pars = (fr_numFixed _ fr + m)%nat -> length mean = cs_rows (fr_Zt _ fr) ->
  (exists v, forall laplace ll, laplace pars = (ll, mean, prec) ->
     (v <= ll / 2 -> lfun laplace = Ok v) /\ (ll / 2 < v -> lfun laplace = Throw RuntimeError)) \/
  ((exists x, isnormal x = false) /\
   forall laplace ll, laplace pars = (ll, mean, prec) -> lfun laplace = Throw RuntimeError).
Proof. exact C57_basis_main. Qed.
Print Assumptions C65_total.

(** This is still so when a request for an integral that does not make sense is an
    error: every integral asked for is of a function that is defined everywhere, with
    derivatives of the right sizes, and a normal of the right dimension, provided the
    linear algebra returns the right sizes. *)
Theorem C65_checked : forall q inverse0 solveM L b, is_normal_quantile q -> (1 <= L <= 25)%nat ->
  (forall d A, inverts inverse0 d A) -> solves_systems solveM -> basis_new q inverse0 solveM L = Ok b ->
  forall inverse determinant isnormal solve operatorSqrt operatorInverseSqrt u r, right_sizes inverse solve operatorSqrt operatorInverseSqrt u ->
  let integral := checked (integrate_and_store inverse determinant solve operatorSqrt operatorInverseSqrt r b) in
  forall fr m l nSL s, regular fr -> no_empty fr -> (1 <= length (cs_cols (fr_Zt _ fr)))%nat -> (1 <= m)%nat ->
  (forall i, In i (fr_Lind _ fr) -> (1 <= i <= Z.of_nat m)%Z) ->
  find_lfun_SR inverse determinant isnormal sparse_belief stored_items (stored_eval b u) (stored_deriv b u) (stored_deriv2 b u) integral
    fr m "binomial" (link_name l) nSL = Ok s ->
  forall (pars mean : list R) prec,
  let lfun := fun laplace => lfun_SR inverse determinant isnormal sparse_belief stored_items (stored_eval b u) (stored_deriv b u) (stored_deriv2 b u) integral
    laplace s pars in
  length pars = (fr_numFixed _ fr + m)%nat -> length mean = cs_rows (fr_Zt _ fr) ->
  (exists v, forall laplace ll, laplace pars = (ll, mean, prec) ->
     (v <= ll / 2 -> lfun laplace = Ok v) /\ (ll / 2 < v -> lfun laplace = Throw RuntimeError)) \/
  ((exists x, isnormal x = false) /\
   forall laplace ll, laplace pars = (ll, mean, prec) -> lfun laplace = Throw RuntimeError).
Proof. exact C65_main. Qed.
Print Assumptions C65_checked.

Example C65_case : is_normal_quantile quantile /\ (forall d A, inverts some_inverse d A) /\ solves_systems some_solve /\
  (forall d A, inverts sized_inverse d A) /\ right_sizes sized_inverse (fun _ v => v) (fun A => A) (fun A => A) sized_elsewhere /\
  (regular contest /\ no_empty contest) /\
  forall r, exists b s v, basis_new quantile some_inverse some_solve 3 = Ok b /\
  checked_setup r b contest 1 "binomial" "logit" 3 = Ok s /\ scopes_of s = [[0; 1]; [0]; [1]]%Z /\
  checked_lfun r b (small_approx contest_Q (2 * v)) s [1; 0] = Ok v.
Proof.
  exact (conj quantile_normal (conj some_inverse_inverts (conj some_solve_solves (conj sized_inverse_inverts (conj sized_right
    (conj contest_regular checked_case)))))).
Qed.

(** C66: the clusters, the separators and the edges depend only on the scopes of the
    factors, not on their values or on the parameters. *)
Theorem C66_same_tree : forall S1 S2 (fs1 : list (B S1)) (fs2 : list (B S2)),
  map (bscope S1) fs1 = map (bscope S2) fs2 -> (forall f, In f fs1 -> NoDup (bscope S1 f)) ->
  exists cg1 cg2, build fs1 = Ok cg1 /\ build fs2 = Ok cg2 /\
    cl_items cg1 = cl_items cg2 /\ sep_items cg1 = sep_items cg2 /\
    map (fun e => (e_first e, e_second e)) (cg_edges cg1) = map (fun e => (e_first e, e_second e)) (cg_edges cg2) /\ width cg1 = width cg2.
Proof. exact C66_tree_main. Qed.
Print Assumptions C66_same_tree.

(** So the check in find_lfun_SR bounds the work at all parameters: C65 is still so when
    storing a function on a sparse grid of more than 500000 points is an error. *)
Theorem C66_limit : forall q inverse0 solveM nSL b, is_normal_quantile q -> (1 <= nSL <= 25)%nat ->
  (forall d A, inverts inverse0 d A) -> solves_systems solveM -> basis_new q inverse0 solveM nSL = Ok b ->
  forall inverse determinant isnormal solve operatorSqrt operatorInverseSqrt u r,
  let integral := limited 500000 nSL (integrate_and_store inverse determinant solve operatorSqrt operatorInverseSqrt r b) in
  forall fr m l s, regular fr -> no_empty fr -> (1 <= length (cs_cols (fr_Zt _ fr)))%nat -> (1 <= m)%nat ->
  (forall i, In i (fr_Lind _ fr) -> (1 <= i <= Z.of_nat m)%Z) ->
  find_lfun_SR inverse determinant isnormal sparse_belief stored_items (stored_eval b u) (stored_deriv b u) (stored_deriv2 b u) integral
    fr m "binomial" (link_name l) nSL = Ok s ->
  forall (pars mean : list R) prec,
  let lfun := fun laplace => lfun_SR inverse determinant isnormal sparse_belief stored_items (stored_eval b u) (stored_deriv b u) (stored_deriv2 b u) integral
    laplace s pars in
  length pars = (fr_numFixed _ fr + m)%nat -> length mean = cs_rows (fr_Zt _ fr) ->
  (exists v, forall laplace ll, laplace pars = (ll, mean, prec) ->
     (v <= ll / 2 -> lfun laplace = Ok v) /\ (ll / 2 < v -> lfun laplace = Throw RuntimeError)) \/
  ((exists x, isnormal x = false) /\
   forall laplace ll, laplace pars = (ll, mean, prec) -> lfun laplace = Throw RuntimeError).
Proof. exact C66_main. Qed.
Print Assumptions C66_limit.

Example C66_case : (exists (fs1 fs2 : list (B toy)), fs1 <> fs2 /\ map (bscope toy) fs1 = map (bscope toy) fs2 /\ (forall f, In f fs1 -> NoDup (bscope toy f))) /\
  (forall limit nSL items, small_grid limit nSL items -> nSL = 3%nat -> length items = 2%nat -> (49 <= limit)%Z) /\
  forall r, exists b s v, basis_new quantile some_inverse some_solve 3 = Ok b /\
  limited_setup r b contest 1 "binomial" "logit" 3 = Ok s /\ scopes_of s = [[0; 1]; [0]; [1]]%Z /\
  limited_lfun r b (small_approx contest_Q (2 * v)) s [1; 0] = Ok v.
Proof. exact (conj same_scopes (conj small_grid_49 limited_case)). Qed.
