(** C80: sequential reduction with observations that have no random effect. *)
From Coq Require Import String List ZArith Reals.
From Verif Require Import Model.Base Model.Family Model.GLMM Model.SplitFrame Model.Vectors Model.Mixed Model.MultiNormal
  Model.ClusterGraph Model.LfunSR Spec.Numbers Spec.FamilySpec Spec.GLMMSpec Spec.SplitSpec Spec.EmptySpec Spec.BeliefSpec Spec.IntegralSpec
  Spec.MixedSpec Spec.DensitySpec Spec.TotalSpec Spec.LfunSpec Spec.LogSum
  Proofs.DensityJoint Proofs.SplitCases Proofs.LfunMain Proofs.LfunCases Proofs.EmptyMain Proofs.EmptyCases.
Import ListNotations.
Local Open Scope R_scope.
Notation length := List.length.

(** The factors are made, without an error, and their product is the likelihood of another
    model frame: observation o only keeps the random effects of observation src o, the first
    one that has all those of the o-th observation with random effects. *)
Theorem C80_factors : forall fr l, regular fr -> closed fr -> with_effects fr l -> l <> [] ->
  (exists src, forall o, (o < length (cs_cols (fr_Zt _ fr)))%nat -> taken_from fr l o (src o)) /\
  forall src, (forall o, (o < length (cs_cols (fr_Zt _ fr)))%nat -> taken_from fr l o (src o)) ->
  exists ds, find_factorization_terms Rnum fr =
    Ok (map (GLMMTerm Rnum) ds ++ map (fun i => NormalTerm Rnum [Z.of_nat i] [0] [[1]]) (seq 0 (cs_rows (fr_Zt _ fr)))) /\
  forall P beta theta u, length u = cs_rows (fr_Zt _ fr) ->
    fold_right Rplus 0 (map (fun d => factor_loglik P d beta theta (restrict u (gd_items _ d))) ds) = factor_loglik P (whole (keep fr src)) beta theta u.
Proof. exact C80_factors_main. Qed.
Print Assumptions C80_factors.

(** So with exact integrals the loglikelihood is the one of that frame. *)
Theorem C80_likelihood : forall inverse determinant isnormal T scope eval deriv deriv2 integral, determinants 1 determinant ->
  forall fr l src m lk P nSL s, regular fr -> closed fr -> with_effects fr l -> l <> [] ->
  (forall o, (o < length (cs_cols (fr_Zt _ fr)))%nat -> taken_from fr l o (src o)) -> (1 <= m)%nat ->
  (forall i, In i (fr_Lind _ fr) -> (1 <= i <= Z.of_nat m)%Z) -> inverse_link lk P ->
  find_lfun_SR inverse determinant isnormal T scope eval deriv deriv2 integral fr m "binomial" (link_name lk) nSL = Ok s ->
  forall laplace pars v, lfun_SR inverse determinant isnormal T scope eval deriv deriv2 integral laplace s pars = Ok v ->
  length pars = (fr_numFixed _ fr + m)%nat /\ v <= fst (fst (laplace pars)) / 2 /\
  let S := sr_sig inverse determinant isnormal T scope eval deriv deriv2 integral
             (GLMM.mkParams Rnum (firstn m pars) (skipn m pars) (mkFamily lk Binomial)) in
  forall LI, exact_integral S LI -> fubini S LI ->
  forall w, v = INR (cs_rows (fr_Zt _ fr)) * (ln (sqrt (2 * PI)) - logSqrtTwoPi) +
    iterated S LI (effects fr) (joint_density P (keep fr src) (skipn m pars) (firstn m pars)) w.
Proof. exact C80_likelihood_main. Qed.
Print Assumptions C80_likelihood.

(** It is the frame itself if the random effects of every observation o are among those of
    src o, and that is so if the observations without random effects come last. *)
Theorem C80_right : forall fr l src, regular fr -> with_effects fr l -> 
  (forall o, (o < length (cs_cols (fr_Zt _ fr)))%nat -> taken_from fr l o (src o)) ->
  ((forall o, (o < length (cs_cols (fr_Zt _ fr)))%nat -> within fr o (src o)) -> keep fr src = fr) /\
  (empty_last fr -> forall o, (o < length (cs_cols (fr_Zt _ fr)))%nat -> within fr o (src o)).
Proof. exact C80_right_main. Qed.
Print Assumptions C80_right.

(** Then the loglikelihood is right. *)
Theorem C80_last : forall inverse determinant isnormal T scope eval deriv deriv2 integral, determinants 1 determinant ->
  forall fr m lk P nSL s, regular fr -> empty_last fr -> (exists o, (o < length (cs_cols (fr_Zt _ fr)))%nat /\ has_effect fr o) -> (1 <= m)%nat ->
  (forall i, In i (fr_Lind _ fr) -> (1 <= i <= Z.of_nat m)%Z) -> inverse_link lk P ->
  find_lfun_SR inverse determinant isnormal T scope eval deriv deriv2 integral fr m "binomial" (link_name lk) nSL = Ok s ->
  forall laplace pars v, lfun_SR inverse determinant isnormal T scope eval deriv deriv2 integral laplace s pars = Ok v ->
  length pars = (fr_numFixed _ fr + m)%nat /\ v <= fst (fst (laplace pars)) / 2 /\
  let S := sr_sig inverse determinant isnormal T scope eval deriv deriv2 integral
             (GLMM.mkParams Rnum (firstn m pars) (skipn m pars) (mkFamily lk Binomial)) in
  forall LI, exact_integral S LI -> fubini S LI ->
  forall w, v = INR (cs_rows (fr_Zt _ fr)) * (ln (sqrt (2 * PI)) - logSqrtTwoPi) +
    iterated S LI (effects fr) (joint_density P fr (skipn m pars) (firstn m pars)) w.
Proof. exact C80_last_main. Qed.
Print Assumptions C80_last.

(** But one such observation in front of the others is enough for a loglikelihood that is
    too large, although every integral is exact. *)
Theorem C80_likelihood_refuted : exists fr m inverse determinant isnormal T scope eval deriv deriv2 integral (LI : (R -> R) -> R) s laplace pars v (w : Z -> R),
  regular fr /\ closed fr /\ determinants 1 determinant /\
  (forall o, (1 <= o < length (cs_cols (fr_Zt _ fr)))%nat -> has_effect fr o) /\
  find_lfun_SR inverse determinant isnormal T scope eval deriv deriv2 integral fr m "binomial" "logit" 3 = Ok s /\
  lfun_SR inverse determinant isnormal T scope eval deriv deriv2 integral laplace s pars = Ok v /\
  let S := sr_sig inverse determinant isnormal T scope eval deriv deriv2 integral
             (GLMM.mkParams Rnum (firstn m pars) (skipn m pars) (mkFamily Logit Binomial)) in
  exact_integral S LI /\ fubini S LI /\
  INR (cs_rows (fr_Zt _ fr)) * (ln (sqrt (2 * PI)) - logSqrtTwoPi) +
    iterated S LI (effects fr) (joint_density logistic fr (skipn m pars) (firstn m pars)) w < v.
Proof. exact C80_refuted_main. Qed.
Print Assumptions C80_likelihood_refuted.

(** Slopes for two groups; the first, or the last, of three observations has covariate zero. *)
Example C80_case : (regular shifted /\ closed shifted /\ with_effects shifted [1; 2]%nat /\ (forall o, (o < 3)%nat -> taken_from shifted [1; 2]%nat o (shifted_src o))) /\
  regular trailing /\ empty_last trailing /\ has_effect trailing 1 /\ ~ has_effect trailing 2 /\
  (forall p, exact_integral (node_sig two_nodes p) (logsum two_nodes) /\ fubini (node_sig two_nodes p) (logsum two_nodes)) /\ determinants 1 det_small /\
  exists s v, node_setup two_nodes trailing 1 "binomial" "logit" 3 = Ok s /\ node_lfun two_nodes (two_approx (2 * v)) s [1; 1] = Ok v.
Proof. exact C80_case_main. Qed.
