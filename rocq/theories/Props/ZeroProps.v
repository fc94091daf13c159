(** C68: level 0 of sequential reduction. *)
From Coq Require Import String List ZArith Reals.
From Verif Require Import Model.Base Model.Family Model.GLMM Model.SplitFrame Model.Vectors Model.Mixed Model.ClusterGraph Model.MultiNormal Model.Quadrature Model.SparseGrid Model.BasisLevel
  Model.AnyConversion Model.LfunSR Model.Sequential Spec.Numbers Spec.FamilySpec Spec.GLMMSpec Spec.SplitSpec Spec.ISSpec Spec.MatrixSpec Spec.HermiteSpec Spec.LaplaceSpec Spec.GridSpec Spec.SplineSpec
  Spec.DensitySpec Spec.LfunSpec Spec.JointSpec Spec.SequentialSpec Spec.TreeSpec Spec.Toy
  Proofs.QuantileMain Proofs.BasisMain Proofs.DensityJoint Proofs.JointCases Proofs.LfunCases Proofs.QuadratureCases Proofs.SequentialCases Proofs.AnyMain Proofs.LevelZero.
Import ListNotations.
Local Open Scope R_scope.

(** At level 0 the code converts 0/0 to int, which is undefined (C34).  Whatever
    integers the conversions deliver, the basis is one constant function with its knot at
    0, and nothing else undefined happens in building or evaluating it. *)
Theorem C68_constant : forall any_int any_unsigned q inverse0 solveM,
  exists b, any_basis_new any_int any_unsigned q inverse0 solveM 0 = Ok b /\ b_levelMax b = 0%nat /\ b_getKnot b 0 0 = Ok 0 /\
  forall x, b_evaluate b x 0 0 = Ok 1 /\ b_evaluateDerivative b x 0 0 = Ok 0 /\ b_evaluateSecondDerivative b x 0 0 = Ok 0.
Proof. exact C68_constant_main. Qed.
Print Assumptions C68_constant.

(** The value is then Laplace's approximation, as documented for nSL = 0, with the number
    of points that the options choose for this level. *)
Theorem C68_laplace : forall any_int any_unsigned q inverse0 solveM b, any_basis_new any_int any_unsigned q inverse0 solveM 0 = Ok b ->
  forall inverse determinant isnormal solve operatorSqrt operatorInverseSqrt u,
  (forall d A, inverts inverse d A) -> determinants 1 determinant ->
  (forall d A, (0 < d)%nat -> square d A -> square d (operatorSqrt A) /\ square d (operatorInverseSqrt A)) ->
  forall es lam V, es (findHermiteJacobi 1) = (lam, V) -> eigendecomposition 1 (findHermiteJacobi 1) lam V ->
  let r := rule_initialize es (2 ^ (0 + 1) - 1) in
  forall fr m l P s, regular fr -> no_empty fr -> (1 <= length (cs_cols (fr_Zt _ fr)))%nat -> (1 <= m)%nat ->
  (forall i, In i (fr_Lind _ fr) -> (1 <= i <= Z.of_nat m)%Z) -> inverse_link l P ->
  sequential_setup inverse determinant isnormal solve operatorSqrt operatorInverseSqrt r b u fr m "binomial" (link_name l) 0 = Ok s ->
  forall laplace pars v ll mean Q Sigma, laplace pars = (ll, mean, Q) ->
  let mu := fun e => nth (Z.to_nat e) mean 0 in
  joint_precision (map (sr_scope sparse_belief stored_items) (sr_beliefs _ s)) (effects fr) Q ->
  joint_variance (effects fr) Q Sigma -> proper_marginals determinant (effects fr) mu Sigma ->
  sequential_lfun inverse determinant isnormal solve operatorSqrt operatorInverseSqrt r b u laplace s pars = Ok v ->
  v = items_laplace (effects fr) (joint_density P fr (skipn m pars) (firstn m pars)) mu Q
      + INR (cs_rows (fr_Zt _ fr)) * (ln (sqrt (2 * PI)) - logSqrtTwoPi + ln (sqrtPi / sqrt PI)).
Proof. exact C68_laplace_main. Qed.
Print Assumptions C68_laplace.

(** There is always a value, or the error for a value that is not finite or above the
    Laplace approximation supplied. *)
Theorem C68_total : forall any_int any_unsigned q inverse0 solveM b, any_basis_new any_int any_unsigned q inverse0 solveM 0 = Ok b ->
  forall inverse determinant isnormal solve operatorSqrt operatorInverseSqrt u,
  forall r fr m l s, regular fr -> no_empty fr -> (1 <= length (cs_cols (fr_Zt _ fr)))%nat -> (1 <= m)%nat ->
  (forall i, In i (fr_Lind _ fr) -> (1 <= i <= Z.of_nat m)%Z) ->
  sequential_setup inverse determinant isnormal solve operatorSqrt operatorInverseSqrt r b u fr m "binomial" (link_name l) 0 = Ok s ->
  forall (pars mean : list R) prec,
  let lfun := fun laplace => sequential_lfun inverse determinant isnormal solve operatorSqrt operatorInverseSqrt r b u laplace s pars in
  length pars = (fr_numFixed _ fr + m)%nat -> length mean = cs_rows (fr_Zt _ fr) ->
  (exists v, forall laplace ll, laplace pars = (ll, mean, prec) ->
     (v <= ll / 2 -> lfun laplace = Ok v) /\ (ll / 2 < v -> lfun laplace = Throw RuntimeError)) \/
  ((exists x, isnormal x = false) /\
   forall laplace ll, laplace pars = (ll, mean, prec) -> lfun laplace = Throw RuntimeError).
Proof. exact C68_total_main. Qed.
Print Assumptions C68_total.

(** Where all conversions are defined, the results are those of the model in which an
    undefined conversion is undefined behaviour. *)
Theorem C68_agrees : forall any_int any_unsigned q inverse0 solveM L b, basis_new q inverse0 solveM L = Ok b ->
  exists b', any_basis_new any_int any_unsigned q inverse0 solveM L = Ok b' /\ b_levelMax b' = b_levelMax b /\
  forall l j x v, (b_getKnot b l j = Ok v -> b_getKnot b' l j = Ok v) /\ (b_evaluate b x l j = Ok v -> b_evaluate b' x l j = Ok v) /\
    (b_evaluateDerivative b x l j = Ok v -> b_evaluateDerivative b' x l j = Ok v) /\
    (b_evaluateSecondDerivative b x l j = Ok v -> b_evaluateSecondDerivative b' x l j = Ok v).
Proof. exact C68_defined_main. Qed.
Print Assumptions C68_agrees.

Example C68_case : (forall d A, inverts inv_all d A) /\ determinants 1 det_small /\ eigendecomposition 1 (findHermiteJacobi 1) [0] [[1]] /\
  (regular contest /\ no_empty contest) /\
  exists b s v, any_basis_new smallest_int (fun _ => 0%nat) quantile some_inverse some_solve 0 = Ok b /\
  let r := rule_initialize one_rule (2 ^ (0 + 1) - 1) in
  small_setup r b contest 1 "binomial" "logit" 0 = Ok s /\ small_lfun r b (small_approx contest_Q (2 * v)) s [1; 0] = Ok v /\
  joint_precision (scopes_of s) (effects contest) contest_Q /\ joint_variance (effects contest) contest_Q contest_Sigma /\
  proper_marginals det_small (effects contest) zero_mean contest_Sigma.
Proof. exact (conj inv_all_inverts (conj det_small_1 (conj one_point_rule (conj contest_regular zero_case)))). Qed.
