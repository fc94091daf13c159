(** C69: offsets. *)
From Coq Require Import String List ZArith Reals.
From Verif Require Import Model.Base Model.Family Model.GLMM Model.SplitFrame Model.Frames Model.IS Model.HOL Model.LfunSR Model.Offset
  Model.Vectors Model.Mixed Model.MultiNormal Model.ClusterGraph Spec.Numbers Spec.FamilySpec Spec.GLMMSpec Spec.SplitSpec Spec.FramesSpec Spec.ISSpec Spec.HOLSpec
  Spec.BeliefSpec Spec.IntegralSpec Spec.MixedSpec Spec.DensitySpec Spec.TotalSpec Spec.LfunSpec Spec.OffsetSpec Spec.LogSum
  Proofs.DensityJoint Proofs.LfunCases Proofs.HOLMain Proofs.HOLCases Proofs.OffsetMain.
From Verif Require Spec.MatrixSpec.
Import ListNotations.
Local Open Scope R_scope.

(** Without an offset, or if all the offsets are zero, the loglikelihood by sequential
    reduction is the one of the model with the offsets (as in C56). *)
Theorem C69_sequential : forall inverse determinant isnormal T scope eval deriv deriv2 integral, determinants 1 determinant ->
  forall f m l P nSL s, let fr := of_frame f in regular fr -> no_empty fr -> (1 <= length (cs_cols (fr_Zt _ fr)))%nat -> (1 <= m)%nat ->
  (forall i, In i (fr_Lind _ fr) -> (1 <= i <= Z.of_nat m)%Z) -> inverse_link l P -> no_offset (of_offset f) ->
  offset_find_lfun_SR inverse determinant isnormal T scope eval deriv deriv2 integral f m "binomial" (link_name l) nSL = Ok s ->
  forall laplace pars v, lfun_SR inverse determinant isnormal T scope eval deriv deriv2 integral laplace s pars = Ok v ->
  let S := sr_sig inverse determinant isnormal T scope eval deriv deriv2 integral
             (GLMM.mkParams Rnum (firstn m pars) (skipn m pars) (mkFamily l Binomial)) in
  forall LI, exact_integral S LI -> fubini S LI ->
  forall w, v = INR (cs_rows (fr_Zt _ fr)) * (ln (sqrt (2 * PI)) - logSqrtTwoPi) +
    iterated S LI (effects fr) (offset_density P fr (of_offset f) (skipn m pars) (firstn m pars)) w.
Proof. exact C69_sequential_main. Qed.
Print Assumptions C69_sequential.

(** Otherwise it may differ from it, although every integral is exact. *)
Theorem C69_sequential_refuted : exists f m inverse determinant isnormal T scope eval deriv deriv2 integral (LI : (R -> R) -> R) s laplace pars v (w : Z -> R),
  let fr := of_frame f in regular fr /\ no_empty fr /\ determinants 1 determinant /\
  option_map (@length R) (of_offset f) = Some (length (cs_cols (fr_Zt _ fr))) /\
  offset_find_lfun_SR inverse determinant isnormal T scope eval deriv deriv2 integral f m "binomial" "logit" 3 = Ok s /\
  lfun_SR inverse determinant isnormal T scope eval deriv deriv2 integral laplace s pars = Ok v /\
  let S := sr_sig inverse determinant isnormal T scope eval deriv deriv2 integral
             (GLMM.mkParams Rnum (firstn m pars) (skipn m pars) (mkFamily Logit Binomial)) in
  exact_integral S LI /\ fubini S LI /\
  v < INR (cs_rows (fr_Zt _ fr)) * (ln (sqrt (2 * PI)) - logSqrtTwoPi) +
    iterated S LI (effects fr) (offset_density logistic fr (of_offset f) (skipn m pars) (firstn m pars)) w.
Proof. exact C69_sequential_refuted_main. Qed.
Print Assumptions C69_sequential_refuted.

(** The same for the integrand of importance sampling *)
Theorem C69_importance : forall fam n f r y w theta beta, fits n (of_frame f) r y w theta beta -> no_offset (of_offset f) ->
  forall nIS u, (0 < nIS)%nat -> sized (nrandom (of_frame f)) nIS u ->
  offset_find_log_integrand fam (theta ++ beta) f r nIS u =
  Ok (map (fun j => offset_log_joint n (linkinv fam) (dev_resids fam) (of_frame f) (of_offset f) y w beta theta (draw u j)) (seq 0 nIS)).
Proof. exact C69_importance_main. Qed.
Print Assumptions C69_importance.

Theorem C69_importance_refuted : exists n f r y w theta beta u v,
  fits n (of_frame f) r y w theta beta /\ option_map (@length R) (of_offset f) = Some n /\ sized (nrandom (of_frame f)) 1 u /\
  offset_find_log_integrand (r_binomial 0 Logit) (theta ++ beta) f r 1 u = Ok [v] /\
  offset_log_joint n (linkinv (r_binomial 0 Logit)) (dev_resids (r_binomial 0 Logit)) (of_frame f) (of_offset f) y w beta theta (draw u 0) < v.
Proof. exact C69_importance_refuted_main. Qed.
Print Assumptions C69_importance_refuted.

(** and for the second-order term of the Laplace approximation, for which the mode and
    the second derivatives are those of the model with the offsets. *)
Theorem C69_second_order : forall solve familyName linkName l P n f r y w theta beta H G u_hat,
  make_family familyName linkName = Ok (mkFamily l Binomial) -> inverse_link l P -> let m := of_frame f in fits n m r y w theta beta ->
  no_offset (of_offset f) ->
  solves solve (nrandom m) n H -> MatrixSpec.are_inverse (nrandom m) H G -> length u_hat = nrandom m ->
  (forall k, (k < n)%nat -> tiny < P (predictor m beta theta u_hat k) < 1 - tiny) ->
  forall f1 f2 f3 f4, derivatives4 (nrandom m) (fun u => - offset_log_density n P m (of_offset f) y w beta theta u) f1 f2 f3 f4 ->
  offset_find_epsilon_1 solve familyName linkName (theta ++ beta) f r u_hat H =
  Ok (second_order (nrandom m) (at_ G) (fun i j k => f3 i j k u_hat) (fun i j k l => f4 i j k l u_hat)).
Proof. exact C69_second_order_main. Qed.
Print Assumptions C69_second_order.

Theorem C69_second_order_refuted : exists solve n f r y w theta beta H G u_hat f1 f2 f3 f4, let m := of_frame f in
  fits n m r y w theta beta /\ option_map (@length R) (of_offset f) = Some n /\ solves solve (nrandom m) n H /\ MatrixSpec.are_inverse (nrandom m) H G /\ length u_hat = nrandom m /\
  derivatives4 (nrandom m) (fun u => - offset_log_density n logistic m (of_offset f) y w beta theta u) f1 f2 f3 f4 /\
  (forall i, (i < nrandom m)%nat -> f1 i u_hat = 0) /\ (forall i j, (i < nrandom m)%nat -> (j < nrandom m)%nat -> f2 i j u_hat = at_ H i j) /\
  exists v, offset_find_epsilon_1 solve "binomial" "logit" (theta ++ beta) f r u_hat H = Ok v /\
    v < second_order (nrandom m) (at_ G) (fun i j k => f3 i j k u_hat) (fun i j k l => f4 i j k l u_hat) / 2.
Proof. exact C69_second_order_refuted_main. Qed.
Print Assumptions C69_second_order_refuted.

(** The frames of C56_case and C52_case, with an offset of zeros. *)
Example C69_case : let f := mkOffset contests (Some [0; 0; 0]) in no_offset (of_offset f) /\
  (regular (of_frame f) /\ no_empty (of_frame f)) /\
  (exists s v, node_setup two_nodes (of_frame f) 1 "binomial" "logit" 3 = Ok s /\
    node_lfun two_nodes (contests_approx (2 * v)) s [1; 0] = Ok v) /\
  let g := mkOffset case_h None in no_offset (of_offset g) /\ fits 1 (of_frame g) case_hr [0] [1] [1] [1 / 2].
Proof. exact zero_offset_case. Qed.
