(** C58: how the errors of the integrations add up. *)
From Coq Require Import String List ZArith Reals.
From Verif Require Import Model.Base Model.Family Model.GLMM Model.SplitFrame Model.Vectors Model.Mixed Model.MultiNormal Model.NormalSig
  Model.ClusterGraph Model.LfunSR Spec.Numbers Spec.GLMMSpec Spec.SplitSpec Spec.BeliefSpec Spec.IntegralSpec Spec.TreeSpec
  Spec.DensitySpec Spec.LfunSpec Spec.LogSum Spec.ErrorSpec
  Proofs.DensityJoint Proofs.JointCases Proofs.LfunCases Proofs.ErrorMain Proofs.ErrorCases.
Import ListNotations.
Local Open Scope R_scope.

(** C58: if the error of every stored integral is between lo and hi, then the error of
    the result is between N lo and N hi, where N is the number of items: the errors
    add up, and none of them is counted twice or magnified.  With lo = 0 or hi = 0: if
    no integral is underestimated, nor is the result. *)
Theorem C58_error : forall inverse determinant isnormal T scope eval deriv deriv2 integral LI lo hi,
  log_integral LI -> @stores_within T scope eval integral LI lo hi ->
  let S := normal_sig inverse determinant isnormal T scope eval deriv deriv2 integral in
  forall (fs : list T) (cg : cgraph S) mean prec v, (forall f, In f fs -> NoDup (scope f)) -> @build S fs = Ok cg ->
  computeLogNormalizingConstant cg mean prec = Ok v ->
  (exists order, NoDup order /\ (forall x, In x order <-> exists f, In f fs /\ In x (scope f)) /\
    forall w, INR (length order) * lo <= v - iterated S LI order (fun w => dsumS S (map (fval S w) fs)) w <= INR (length order) * hi) /\
  (fubini S LI -> forall order, NoDup order -> (forall x, In x order <-> exists f, In f fs /\ In x (scope f)) ->
    forall w, INR (length order) * lo <= v - iterated S LI order (fun w => dsumS S (map (fval S w) fs)) w <= INR (length order) * hi).
Proof. exact C58_error_main. Qed.
Print Assumptions C58_error.

(** The same for the loglikelihood of a model frame with q random effects. *)
Theorem C58_likelihood : forall inverse determinant isnormal T scope eval deriv deriv2 integral, determinants 1 determinant ->
  forall LI lo hi, log_integral LI -> @stores_within T scope eval integral LI lo hi ->
  forall fr m l P nSL s, regular fr -> no_empty fr -> (1 <= length (cs_cols (fr_Zt _ fr)))%nat -> (1 <= m)%nat ->
  (forall i, In i (fr_Lind _ fr) -> (1 <= i <= Z.of_nat m)%Z) -> inverse_link l P ->
  find_lfun_SR inverse determinant isnormal T scope eval deriv deriv2 integral fr m "binomial" (link_name l) nSL = Ok s ->
  forall laplace pars v, lfun_SR inverse determinant isnormal T scope eval deriv deriv2 integral laplace s pars = Ok v ->
  let S := sr_sig inverse determinant isnormal T scope eval deriv deriv2 integral
             (GLMM.mkParams Rnum (firstn m pars) (skipn m pars) (mkFamily l Binomial)) in
  fubini S LI ->
  forall w, let q := INR (cs_rows (fr_Zt _ fr)) in
    q * lo <= v - (q * (ln (sqrt (2 * PI)) - logSqrtTwoPi) +
       iterated S LI (effects fr) (joint_density P fr (skipn m pars) (firstn m pars)) w) <= q * hi.
Proof. exact C58_likelihood_main. Qed.
Print Assumptions C58_likelihood.

(** Three random effects, two clusters; the integrals are sums over two nodes, stored
    with errors of up to a tenth, so that C56 does not apply. *)
Example C58_case : log_integral (logsum two_nodes) /\
  stores_within fst snd (rough_sum two_nodes) (logsum two_nodes) (- (1 / 10)) (1 / 10) /\
  (forall p, fubini (sr_sig inv_all det_small (fun _ => true) grid fst snd zeros zeros2 (rough_sum two_nodes) p) (logsum two_nodes)) /\
  ~ (forall p, exact_integral (sr_sig inv_all det_small (fun _ => true) grid fst snd zeros zeros2 (rough_sum two_nodes) p) (logsum two_nodes)) /\
  (regular contests /\ no_empty contests) /\ determinants 1 det_small /\
  exists s v, rough_setup two_nodes contests 1 "binomial" "logit" 3 = Ok s /\
    rough_lfun two_nodes (contests_approx (2 * v)) s [1; 0] = Ok v.
Proof. exact rough_case. Qed.
