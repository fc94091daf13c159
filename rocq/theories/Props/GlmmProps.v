(** C76: glmm, from its arguments to a fit.  X has the functions of other packages. *)
From Coq Require Import String List ZArith Arith Reals.
From Verif Require Import Model.Base Model.Family Model.GLMM Model.SplitFrame Model.Vectors Model.Frames Model.Subexpr Model.SplitFormula Model.FindModfr Model.IS Model.LfunSR Model.Control Model.Fit Model.Glmm
  Spec.Numbers Spec.GLMMSpec Spec.MatrixSpec Spec.FramesSpec Spec.ISSpec Spec.MirrorSpec Spec.ControlSpec Spec.FitSpec Spec.GlmmSpec
  Proofs.HOLMain Proofs.MirrorCases Proofs.FindModfrCases Proofs.GlmmMain Proofs.GlmmCases.
Import ListNotations.
Local Open Scope string_scope.
Local Open Scope R_scope.
Notation length := List.length.

(** Weights are accepted exactly if they are integers up to 2^-26. *)
Theorem C76_weights : forall ws,
  (List.Forall near_integer ws -> check_weights ws = Ok tt) /\ (~ List.Forall near_integer ws -> check_weights ws = Throw RuntimeError).
Proof. exact weights_main. Qed.
Print Assumptions C76_weights.

(** What a call must satisfy to return anything: integer weights, one known method, no
    gaussian family if the formula has a random effect outside of Sub(), a binomial family
    with logit or probit link for method SR, order 1 for method Laplace, or order 2 and a
    binomial family with logit link, and for the check of the Laplace approximation a
    binomial family. *)
Theorem C76_accepted : forall X formula subforms data family link method control weights prev res,
  descends (x_optim X) -> (forall g x v, x_grad X g x = Ok v -> exists y, g x = Ok y) ->
  glmm X formula subforms data family link method control weights prev = Ok res ->
  List.Forall near_integer weights /\
  exists meth, method = [meth] /\ In meth methods /\
  (forall form0 subexprs, split_formula formula = Ok (form0, subexprs) -> random_outside_Sub form0 -> family <> "gaussian") /\
  (meth = "SR" -> family = "binomial" /\ (link = "logit" \/ link = "probit")) /\
  (meth = "Laplace" ->
     (used "order" 1 control = 1 \/ used "order" 1 control = 2 /\ family = "binomial" /\ link = "logit") /\
     (used "order" 1 control = 1 -> used "check_Laplace" 0 control <> 0 -> family = "binomial" /\ (link = "logit" \/ link = "probit"))).
Proof. exact C76_accepted_main. Qed.
Print Assumptions C76_accepted.

(** A fit has the loglikelihood that find_lfun_glmm gives; its estimates are the absolute
    values of parameters where this is defined and at least as large as where the fit
    started; those of the random effects are between 0 and 5, and without covariance matrix
    exactly if one is above 4.9. *)
Theorem C76_estimates : forall X formula subforms data family link method control weights prev f lfun m meth con div un,
  descends (x_optim X) -> glmm X formula subforms data family link method control weights prev = Ok (GlmmFit f lfun m meth con div un) ->
  (1 <= ntheta m)%nat -> (forall x, prev = Some x -> length x = (ntheta m + mo_p _ m)%nat) ->
  method = [meth] /\ find_lfun_glmm X family link m method control = Ok lfun /\
  length (ft_estim f) = (ntheta m + mo_p _ m)%nat /\ (forall i, (i < ntheta m)%nat -> 0 <= nth i (ft_estim f) 0 <= 5) /\
  (ft_Sigma f = None <-> exists i, (i < ntheta m)%nat /\ 49 / 10 < nth i (ft_estim f) 0) /\
  exists found l0 l, lfun (start_of (ntheta m) (mo_p _ m) prev) = Ok l0 /\ lfun found = Ok l /\ l0 <= l /\ absolute (ntheta m) found (ft_estim f).
Proof. exact C76_estimates_main. Qed.
Print Assumptions C76_estimates.

(** The loglikelihood of each method: minus half the deviance that lme4 gives for order 1 of
    the Laplace approximation and for AGQ with 15 points by default; importance sampling with
    1000 draws by default, and sequential reduction with level k = 3 by default and
    2^(k+1) - 1 points, with mode and precision that lme4 gives for the same parameters. *)
Theorem C76_lfun : forall X family link m meth control lfun, find_lfun_glmm X family link m [meth] control = Ok lfun ->
  exists r dv, mo_re _ m = Some r /\ x_devfun X m r = Ok dv /\ In meth methods /\
  (meth = "Laplace" -> used "order" 1 control = 1 -> forall x d mean P, dv x = Ok (d, mean, P) -> lfun x = Ok (- d / 2)) /\
  (meth = "AGQ" -> exists g, x_AGQ X m r (used "nAGQ" 15 control) = Ok g /\ forall x d, g x = Ok d -> lfun x = Ok (- d / 2)) /\
  (meth = "IS" -> exists k, INR k = used "nIS" 1000 control /\ forall x d mean P, dv x = Ok (d, mean, P) ->
     lfun x = lfun_IS (x_chol X) (x_solve X) (x_determinant X) (x_rnorm X (nrandom m) k) k (x_family X family link) m r x mean P) /\
  (meth = "SR" -> exists k s, INR k = used "nSL" 3 control /\
     LfunSR.find_lfun_SR (x_inverse X) (x_det X) (x_isnormal X) (x_T X) (x_scope X) (x_eval X) (x_deriv X) (x_deriv2 X) (x_integral X (2 ^ (k + 1) - 1) k)
       (frame_of m r) (ntheta m) family link k = Ok s /\
     forall x d mean P, dv x = Ok (d, mean, P) ->
       lfun x = lfun_SR (x_inverse X) (x_det X) (x_isnormal X) (x_T X) (x_scope X) (x_eval X) (x_deriv X) (x_deriv2 X) (x_integral X (2 ^ (k + 1) - 1) k)
         (fun _ => (- d / 2, mean, fun i j => nth (Z.to_nat j) (nth (Z.to_nat i) P []) 0)) s x).
Proof. exact C76_lfun_main. Qed.
Print Assumptions C76_lfun.

(** With methods Laplace and AGQ, the loglikelihood at the estimates reported is at least
    as large as where the fit started, if what lme4 computes changes with the signs of the
    random effects as the model does. *)
Theorem C76_reported : forall X formula subforms data family link method control weights prev f lfun m meth con div un n r,
  descends (x_optim X) -> glmm X formula subforms data family link method control weights prev = Ok (GlmmFit f lfun m meth con div un) ->
  (1 <= ntheta m)%nat -> (forall x, prev = Some x -> length x = (ntheta m + mo_p _ m)%nat) ->
  proper n m -> mo_re _ m = Some r -> bounds_fit r ->
  (meth = "Laplace" /\ (forall devfun, x_devfun X m r = Ok devfun -> symmetric (x_solve2 X) n m r devfun) /\
     (lookup "order" con <> Some 1 -> forall theta beta, length theta = ntheta m -> length beta = mo_p _ m -> exists y w, ISSpec.fits n m r y w theta beta) \/
   meth = "AGQ" /\ (forall k g, x_AGQ X m r k = Ok g -> sign_free m r g)) ->
  exists l0 l, lfun (start_of (ntheta m) (mo_p _ m) prev) = Ok l0 /\ lfun (ft_estim f) = Ok l /\ l0 <= l.
Proof. exact C76_reported_main. Qed.
Print Assumptions C76_reported.

(** With importance sampling it can be smaller. *)
Theorem C76_importance_refuted : exists X f lfun con l0 l, descends (x_optim X) /\
  glmm X simple_formula [] [] "binomial" "logit" ["IS"] [("nIS", 1)] [] (Some [-1; hb]) = Ok (GlmmFit f lfun case_h "IS" con None false) /\
  proper 1 case_h /\ mo_re _ case_h = Some case_hr /\ bounds_fit case_hr /\
  (forall devfun, x_devfun X case_h case_hr = Ok devfun -> symmetric (x_solve2 X) 1 case_h case_hr devfun) /\
  lfun [-1; hb] = Ok l0 /\ lfun (ft_estim f) = Ok l /\ l < l0.
Proof. exact C76_importance_refuted_main. Qed.
Print Assumptions C76_importance_refuted.

(** Options that the method does not have, and the order of the others, make no difference
    but to the list of options that is kept with the fit. *)
Theorem C76_options : forall X formula subforms data family link meth c1 c2 weights prev, same_options meth c1 c2 ->
  same_result (glmm X formula subforms data family link [meth] c1 weights prev) (glmm X formula subforms data family link [meth] c2 weights prev).
Proof. exact C76_options_main. Qed.
Print Assumptions C76_options.

(** The divergence is found exactly if the method is Laplace with order 1 and the check is
    asked for; the warning is given exactly if it is above the threshold; it is half the
    quadratic form of Sigma at the gradient of the difference of the loglikelihoods of orders
    two and one, at the parameters found by the optimizer. *)
Theorem C76_check : forall X formula subforms data family link method control weights prev f lfun m meth con div un,
  glmm X formula subforms data family link method control weights prev = Ok (GlmmFit f lfun m meth con div un) ->
  (div <> None <-> meth = "Laplace" /\ used "order" 1 control = 1 /\ used "check_Laplace" 0 control <> 0) /\
  (un = true <-> exists d, div = Some d /\ used "divergence_threshold" (1 / 10) control < d) /\
  (forall d, div = Some d -> exists found g delta Sigma,
     absolute (ntheta m) found (ft_estim f) /\ (forall S, ft_Sigma f = Some S -> S = Sigma) /\ x_grad X g found = Ok delta /\
     (forall f1 f2, find_lfun_glmm X family link m ["Laplace"] [("order", 1)] = Ok f1 -> find_lfun_glmm X family link m ["Laplace"] [("order", 2)] = Ok f2 ->
        forall x l1 l2, f1 x = Ok l1 -> f2 x = Ok l2 -> g x = Ok (l2 - l1)) /\
     (forall p, MatrixSpec.square p Sigma -> length delta = p ->
        d = sumR p (fun i => sumR p (fun j => nth i delta 0 * MatrixSpec.entry Sigma j i * nth j delta 0)) / 2)).
Proof. exact C76_check_main. Qed.
Print Assumptions C76_check.

(** A model that can be fitted with the Laplace approximation cannot be fitted with a check
    of the approximation, if its family is not binomial; the error comes after the
    optimization. *)
Theorem C76_check_refuted : exists X res, descends (x_optim X) /\
  glmm X simple_formula [] [] "poisson" "log" ["Laplace"] [] [] None = Ok res /\
  glmm X simple_formula [] [] "poisson" "log" ["Laplace"] [("check_Laplace", 1)] [] None = Throw DomainError.
Proof. exact C76_check_refuted_main. Qed.
Print Assumptions C76_check_refuted.

(** A gaussian family is refused for y ~ (1 | g) but not for random effects of a
    subformula. *)
Theorem C76_gaussian_refuted : exists X res, descends (x_optim X) /\ (exists r, mo_re _ case_base = Some r) /\
  (forall subforms data res, glmm X simple_formula subforms data "gaussian" "identity" ["Laplace"] [] [] None <> Ok res) /\
  glmm X case_formula [case_subform] case_data "gaussian" "identity" ["Laplace"] [] [] None = Ok res.
Proof. exact C76_gaussian_refuted_main. Qed.
Print Assumptions C76_gaussian_refuted.

(** A call that meets the hypotheses, with the sign of an estimate changed. *)
Example C76_case : exists X f lfun con, descends (x_optim X) /\ (forall g x v, x_grad X g x = Ok v -> exists y, g x = Ok y) /\
  glmm X simple_formula [] [] "poisson" "log" ["Laplace"] [] [3; 5] (Some [-1; 2]) = Ok (GlmmFit f lfun case_h "Laplace" con None false) /\ ft_estim f = [1; 2] /\
  ntheta case_h = 1%nat /\ proper 1 case_h /\ mo_re _ case_h = Some case_hr /\ bounds_fit case_hr /\ lookup "order" con = Some 1 /\
  forall devfun, x_devfun X case_h case_hr = Ok devfun -> symmetric (x_solve2 X) 1 case_h case_hr devfun.
Proof. exact C76_case_main. Qed.
Example C76_check_case : exists X f lfun con d, descends (x_optim X) /\
  glmm X simple_formula [] [] "binomial" "logit" ["Laplace"] [("check_Laplace", 1)] [] None = Ok (GlmmFit f lfun case_h "Laplace" con (Some d) true) /\ d = 2 /\
  used "divergence_threshold" (1 / 10) [("check_Laplace", 1)] = 1 / 10.
Proof. exact C76_check_case_main. Qed.
Example C76_options_case : same_options "Laplace" [("nAGQ", 7); ("order", 2); ("check_Laplace", 1)] [("check_Laplace", 1); ("order", 2)] /\
  ~ same_options "Laplace" [("order", 2)] [("order", 1)].
Proof. exact options_case_main. Qed.
(** Negative weights are integers. *)
Example C76_weights_case : check_weights [2; -1] = Ok tt /\ check_weights [2; 1 / 2] = Throw RuntimeError.
Proof. exact weights_case_main. Qed.
