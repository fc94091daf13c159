(** C35, C46: the factor contributed by a set of observations. *)
From Coq Require Import List Reals ZArith Lia Lra Arith.
From Coquelicot Require Import Coquelicot.
From Verif Require Import Model.Base Model.Family Model.GLMM Spec.Numbers Spec.FamilySpec Spec.GLMMSpec
  Proofs.FamilyMain Proofs.FamilyCases Proofs.GLMMMain Proofs.GLMMCases.
Import ListNotations.
Local Open Scope R_scope.

(** C35: whatever calls were made before, the value is the log-likelihood of the
    observations at the linear predictor X beta + Z Lambda(theta) x. *)
Theorem C35_value_after_any_history : forall d c0 cs c l P (p : params Rnum) (x : list R),
  shaped d -> glmm_new Rnum d = Ok c0 -> foldM (run_gcall d) cs c0 = Ok c ->
  p_family _ p = mkFamily l Binomial -> inverse_link l P ->
  in_range (length (p_theta _ p)) (gd_Lind _ d) -> length (p_beta _ p) = gd_numFixed _ d ->
  length x = length (gd_items _ d) ->
  exists c', glmm_evaluate Rnum d c x p = Ok (factor_loglik P d (p_beta _ p) (p_theta _ p) x, c').
Proof. exact C35_value_main. Qed.
Print Assumptions C35_value_after_any_history.

(** The constructor stays within its vectors exactly if every entry of Lind is
    below the number of items. *)
Theorem C35_constructor_in_bounds : forall d, shaped d ->
  (in_range (length (gd_items _ d)) (gd_Lind _ d) -> exists c, glmm_new Rnum d = Ok c) /\
  (~ in_range (length (gd_items _ d)) (gd_Lind _ d) -> glmm_new Rnum d = UB).
Proof. exact C35_new_main. Qed.
Print Assumptions C35_constructor_in_bounds.

(** A correlated random intercept and slope: two items, Lambda^T upper
    triangular, three components of theta.  All sizes fit, and the constructor
    reads out of bounds. *)
Theorem C35_constructor_refuted : exists d, shaped d /\ length (gd_items _ d) = 2%nat /\
  (forall theta, length theta = 3%nat -> in_range (length (theta : list R)) (gd_Lind _ d)) /\
  glmm_new Rnum d = UB.
Proof. exact correlated_refuted. Qed.
Print Assumptions C35_constructor_refuted.

(** Two items, three observations, theta = (2), after calls with other parameters. *)
Example C35_case : shaped two_groups /\ in_range (length [2]) (gd_Lind _ two_groups) /\
  exists c0 c, glmm_new Rnum two_groups = Ok c0 /\
    foldM (run_gcall two_groups)
      [(Evaluate, [1; 2], mkParams Rnum [5] [1] (mkFamily Logit Binomial));
       (Derivative, [0; 0], mkParams Rnum [7] [3] (mkFamily Logit Binomial))] c0 = Ok c /\
    eta two_groups [3] [2] [1; 10] 0 = 3 + 2 * 1 /\ eta two_groups [3] [2] [1; 10] 2 = 3 * 4 + 2 * 10.
Proof. exact two_groups_case. Qed.

(** C46: where no mean is clipped, the gradient and the Hessian are those of that
    value, in every coordinate, after any history. *)
Theorem C46_gradient_and_hessian : forall d c0 cs c l P (p : params Rnum) (x : list R),
  shaped d -> glmm_new Rnum d = Ok c0 -> foldM (run_gcall d) cs c0 = Ok c ->
  p_family _ p = mkFamily l Binomial -> inverse_link l P ->
  in_range (length (p_theta _ p)) (gd_Lind _ d) -> length (p_beta _ p) = gd_numFixed _ d ->
  length x = length (gd_items _ d) ->
  (forall k, (k < gd_numObs _ d)%nat -> tiny < P (eta d (p_beta _ p) (p_theta _ p) x k) < 1 - tiny) ->
  exists g h c1 c2,
    glmm_evaluateDerivative Rnum d c x p = Ok (g, c1) /\
    glmm_evaluateSecondDerivative Rnum d c x p = Ok (h, c2) /\
    length g = length x /\ length h = length x /\
    (forall r, (r < length x)%nat -> length (nth r h []) = length x) /\
    let f := factor_loglik P d (p_beta _ p) (p_theta _ p) in
    (forall r, (r < length x)%nat -> is_partial_n f r 1 x (nth r g 0)) /\
    (forall r s, (r < length x)%nat -> (s < length x)%nat -> is_mixed_partial f r s x (at2 h r s)).
Proof. exact C46_main. Qed.
Print Assumptions C46_gradient_and_hessian.

Example C46_case : inverse_link Logit logistic /\
  forall k, (k < gd_numObs _ two_groups)%nat ->
    tiny < logistic (eta two_groups [0] [2] [0; 1 / 2] k) < 1 - tiny.
Proof. exact unclipped_case. Qed.
