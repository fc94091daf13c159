(** C56, C57: the loglikelihood by sequential reduction, from the model frame to the
    number, and the ways it can fail. *)
From Coq Require Import String List ZArith Reals.
From Verif Require Import Model.Base Model.Family Model.GLMM Model.SplitFrame Model.Vectors Model.Mixed Model.MultiNormal
  Model.ClusterGraph Model.LfunSR Spec.Numbers Spec.GLMMSpec Spec.SplitSpec Spec.BeliefSpec Spec.IntegralSpec Spec.TreeSpec
  Spec.MixedSpec Spec.DensitySpec Spec.TotalSpec Spec.LfunSpec Spec.LogSum
  Proofs.DensityJoint Proofs.TotalMain Proofs.TotalCases Proofs.LfunMain Proofs.LfunCases.
Import ListNotations.
Local Open Scope R_scope.

(** C56: if a value is returned, then it is at most half the Laplace value; and if every
    one-variable integral is exact (and the order of integration immaterial), the value
    is the logarithm of the integral, over all the random effects, of the joint density
    of the observations and the random effects, up to the error of the literal used for
    the logarithm of the square root of 2 pi. *)
Theorem C56_likelihood : forall inverse determinant isnormal T scope eval deriv deriv2 integral, determinants 1 determinant ->
  forall fr m l P nSL s, regular fr -> no_empty fr -> (1 <= length (cs_cols (fr_Zt _ fr)))%nat -> (1 <= m)%nat ->
  (forall i, In i (fr_Lind _ fr) -> (1 <= i <= Z.of_nat m)%Z) -> inverse_link l P ->
  find_lfun_SR inverse determinant isnormal T scope eval deriv deriv2 integral fr m "binomial" (link_name l) nSL = Ok s ->
  forall laplace pars v, lfun_SR inverse determinant isnormal T scope eval deriv deriv2 integral laplace s pars = Ok v ->
  length pars = (fr_numFixed _ fr + m)%nat /\ v <= fst (fst (laplace pars)) / 2 /\
  let S := sr_sig inverse determinant isnormal T scope eval deriv deriv2 integral
             (GLMM.mkParams Rnum (firstn m pars) (skipn m pars) (mkFamily l Binomial)) in
  forall LI, exact_integral S LI -> fubini S LI ->
  forall w, v = INR (cs_rows (fr_Zt _ fr)) * (ln (sqrt (2 * PI)) - logSqrtTwoPi) +
    iterated S LI (effects fr) (joint_density P fr (skipn m pars) (firstn m pars)) w.
Proof. exact C56_main. Qed.
Print Assumptions C56_likelihood.

(** Other families and links are rejected. *)
Theorem C56_rejects : forall inverse determinant isnormal T scope eval deriv deriv2 integral fr m family link nSL,
  (family <> "binomial"%string \/ forall l, link <> link_name l) ->
  find_lfun_SR inverse determinant isnormal T scope eval deriv deriv2 integral fr m family link nSL = Throw RuntimeError.
Proof. exact C56_rejects_main. Qed.
Print Assumptions C56_rejects.

(** Three random effects that are compared with each other, two clusters of two items;
    the integrals are sums over two nodes, which satisfies the hypotheses. *)
Example C56_case : (regular contests /\ no_empty contests) /\
  (forall p, exact_integral (node_sig two_nodes p) (logsum two_nodes) /\ fubini (node_sig two_nodes p) (logsum two_nodes) /\
     integrates (node_sig two_nodes p)) /\ determinants 1 det_small /\
  exists s v, node_setup two_nodes contests 1 "binomial" "logit" 3 = Ok s /\
    node_lfun two_nodes (contests_approx (2 * v)) s [1; 0] = Ok v.
Proof. exact contests_case. Qed.

(** C57: on a graph made from factors whose derivatives have the right sizes, with a
    mean that has a component for every item, the only way to fail is std::isnormal
    rejecting some number. *)
Theorem C57_only_failure : forall S, group_laws S -> normal_sizes S ->
  (forall f d d2 k n items b, b_integral S f d d2 k n items = Ok b -> bscope S b = items) -> integrates S ->
  forall fs cg mean prec, (forall f, In f fs -> NoDup (bscope S f)) -> (forall f, In f fs -> MixedSpec.shaped S f) ->
  (forall f x, In f fs -> In x (bscope S f) -> (0 <= x < Z.of_nat (length mean))%Z) -> build fs = Ok cg ->
  (exists v, computeLogNormalizingConstant cg mean prec = Ok v) \/
  (computeLogNormalizingConstant cg mean prec = Throw RuntimeError /\ exists x, d_isnormal S x = false).
Proof. exact C57_main. Qed.
Print Assumptions C57_only_failure.

(** std::isnormal rejects zero, too, and so a product of factors that are one everywhere
    (with values whose logarithm is zero) is taken to be improper. *)
Theorem C57_zero_refuted : exists S LI fs cg mean prec, group_laws S /\ normal_sizes S /\ exact_integral S LI /\ integrates S /\
  (forall x, d_isnormal S x = true <-> x <> dzero S) /\
  (forall f, In f fs -> NoDup (bscope S f)) /\ (forall f, In f fs -> MixedSpec.shaped S f) /\
  (forall f x, In f fs -> In x (bscope S f) -> (0 <= x < Z.of_nat (length mean))%Z) /\ build fs = Ok cg /\
  (forall order w, iterated S LI order (fun w => dsumS S (map (fval S w) fs)) w = dzero S) /\
  computeLogNormalizingConstant cg mean prec = Throw RuntimeError.
Proof. exact C57_zero_main. Qed.
Print Assumptions C57_zero_refuted.

(** The same for the whole loglikelihood: whether it fails depends on the length of the
    parameters, on std::isnormal, and on the comparison with the Laplace value. *)
Theorem C57_lfun : forall inverse determinant isnormal T scope eval deriv deriv2 integral,
  forall fr m l nSL s, regular fr -> no_empty fr -> (1 <= length (cs_cols (fr_Zt _ fr)))%nat -> (1 <= m)%nat ->
  (forall i, In i (fr_Lind _ fr) -> (1 <= i <= Z.of_nat m)%Z) ->
  find_lfun_SR inverse determinant isnormal T scope eval deriv deriv2 integral fr m "binomial" (link_name l) nSL = Ok s ->
  (forall f d d2 k n items b, integral f d d2 k n items = Ok b -> scope b = items) ->
  forall (pars mean : list R) prec,
  let lfun := fun laplace => lfun_SR inverse determinant isnormal T scope eval deriv deriv2 integral laplace s pars in
  (length pars <> (fr_numFixed _ fr + m)%nat -> forall laplace, lfun laplace = Throw RuntimeError) /\
  (integrates (sr_sig inverse determinant isnormal T scope eval deriv deriv2 integral
      (GLMM.mkParams Rnum (firstn m pars) (skipn m pars) (mkFamily l Binomial))) ->
   length pars = (fr_numFixed _ fr + m)%nat -> length mean = cs_rows (fr_Zt _ fr) ->
   (exists v, forall laplace ll, laplace pars = (ll, mean, prec) ->
      (v <= ll / 2 -> lfun laplace = Ok v) /\ (ll / 2 < v -> lfun laplace = Throw RuntimeError)) \/
   ((exists x, isnormal x = false) /\
    forall laplace ll, laplace pars = (ll, mean, prec) -> lfun laplace = Throw RuntimeError)).
Proof. exact C57_lfun_main. Qed.
Print Assumptions C57_lfun.

(** With one variance parameter, the setup fails only if the width is too large for the
    number of sparse levels. *)
Theorem C57_setup : forall inverse determinant isnormal T scope eval deriv deriv2 integral,
  forall fr l nSL, regular fr -> no_empty fr -> (1 <= length (cs_cols (fr_Zt _ fr)))%nat ->
  (forall i, In i (fr_Lind _ fr) -> i = 1%Z) ->
  exists ts bs cg, find_factorization_terms Rnum fr = Ok ts /\ mapM (make_belief inverse determinant T) ts = Ok bs /\
   sr_graph inverse determinant isnormal T scope eval deriv deriv2 integral (GLMM.mkParams Rnum [] [] (mkFamily l Binomial)) bs = Ok cg /\
   let setup := find_lfun_SR inverse determinant isnormal T scope eval deriv deriv2 integral fr 1 "binomial" (link_name l) nSL in
   ((width cg ^ Z.of_nat (2 * nSL) <= 500000)%Z /\ setup = Ok (mkSR _ bs (mkFamily l Binomial) (fr_numFixed _ fr) 1) \/
    (500000 < width cg ^ Z.of_nat (2 * nSL))%Z /\ setup = Throw RuntimeError).
Proof. exact C57_setup_main. Qed.
Print Assumptions C57_setup.

Example C57_case : (match node_setup two_nodes contests 1 "binomial" "logit" 3 with
    | Ok s => Some (List.length (sr_beliefs _ s)) | _ => None end = Some 5%nat) /\
  (match node_setup two_nodes contests 1 "binomial" "logit" 10 with Throw RuntimeError => true | _ => false end = true).
Proof. exact (conj contests_setup contests_complex). Qed.
