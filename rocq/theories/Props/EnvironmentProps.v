(** C84: lme4's environment, which every evaluation changes, does not show in a fit. *)
From Coq Require Import String List Reals.
From Verif Require Import Model.Base Model.Family Model.Frames Model.Control Model.Fit Model.Glmm Model.Environment Spec.Numbers Spec.EnvironmentSpec
  Proofs.HOLMain Proofs.MirrorCases Proofs.FindModfrCases Proofs.GlmmMain Proofs.GlmmCases Proofs.EnvironmentMain Proofs.EnvironmentCases.
Import ListNotations.
Local Open Scope string_scope.
Local Open Scope R_scope.

(** A fit, or the error, is that of the functions of the parameters that new environments
    compute, for any optimizer and any numerical derivative that ask for values one after
    the other; afterwards the loglikelihood kept with the fit still has its values, whatever
    it has been evaluated at before. *)
Theorem C84_glmm : forall V X optim grad formula subforms data family link method control weights prev, implements V X ->
  (forall f x, x_optim X f x = answers f (optim x)) -> (forall f x, x_grad X f x = answers f (grad x)) ->
  agrees_fit (glmm_env V X optim grad formula subforms data family link method control weights prev)
             (glmm X formula subforms data family link method control weights prev).
Proof. exact glmm_agrees. Qed.
Print Assumptions C84_glmm.

(** The same for find_lfun_glmm. *)
Theorem C84_lfun : forall V X family link m method control, implements V X ->
  match find_lfun_glmm_env V X family link m method control with
  | Ok (lf, e) => exists lfun, find_lfun_glmm X family link m method control = Ok lfun /\ function_of lf e lfun
  | err => same_error err (find_lfun_glmm X family link m method control)
  end.
Proof. exact lfun_agrees. Qed.
Print Assumptions C84_lfun.

(** Two functions made from one environment are not independent: after adaptive quadrature
    has been set up there, the Laplace approximation has the values of the former. *)
Theorem C84_shared_refuted : exists V X m r e0 lf lf2 e1 x, implements V X /\ v_make V m r = Ok e0 /\
  find_lfun_glmm_internal_env V X "binomial" "logit" m r "Laplace" [("order", 1)] e0 = (Ok lf, e0) /\
  find_lfun_glmm_internal_env V X "binomial" "logit" m r "AGQ" [("nAGQ", 15)] e0 = (Ok lf2, e1) /\
  exists l l2, fst (lf x e0) = Ok l /\ fst (lf2 x e1) = Ok l2 /\ l <> l2 /\ fst (lf x e1) = Ok l2.
Proof. exact shared_main. Qed.
Print Assumptions C84_shared_refuted.

(** An environment that has the last argument, or none after an error. *)
Example C84_case : implements case_V env_X /\ (forall f x, x_optim env_X f x = answers f (stay_asks x)) /\ (forall f x, x_grad env_X f x = answers f (grad_asks x)) /\
  exists f lf con e, glmm_env case_V env_X stay_asks grad_asks simple_formula [] [] "poisson" "log" ["Laplace"] [] [3; 5] (Some [-1; 2]) =
    Ok (GlmmFitEnv case_V f lf case_h "Laplace" con None false, e) /\ fst (lf [-1; 2] e) = Ok (- (1)) /\ fst (lf [4; 2] e) = Throw RuntimeError /\
    v_delu case_V (snd (v_call case_V e [1; 2])) <> v_delu case_V (snd (v_call case_V e [2; 2])).
Proof. exact env_case. Qed.
