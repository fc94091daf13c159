(** C60-C62: maximizing the loglikelihood, the reported covariances, and coef and vcov. *)
From Coq Require Import String List ZArith Reals.
From Coquelicot Require Import Coquelicot.
From Verif Require Import Model.Base Model.Family Model.GLMM Model.SplitFrame Model.Vectors Model.Frames Model.LfunSR Model.Fit
  Spec.Numbers Spec.GLMMSpec Spec.MatrixSpec Spec.FramesSpec Spec.FitSpec Proofs.FitMain Proofs.FitCases.
Import ListNotations.
Local Open Scope R_scope.
Notation length := List.length.

(** The estimate is a vector of the right length where the loglikelihood is defined and
    at least as large as at the starting values; at both, the parameters of the random
    effects are between -5 and 5. *)
Theorem C60_estimate : forall optim solve, descends optim ->
  forall lfun p_beta p_theta prev e Sigma, (1 <= p_theta)%nat ->
  (forall x, prev = Some x -> length x = (p_theta + p_beta)%nat) ->
  optimize_glmm optim solve lfun p_beta p_theta prev = Ok (e, Sigma) ->
  forall start, start = match prev with Some x => x | None => repeat (1 / 2) p_theta ++ repeat 0 p_beta end ->
  length e = (p_theta + p_beta)%nat /\ in_box p_theta start /\ in_box p_theta e /\
  exists l0 l, lfun start = Ok l0 /\ lfun e = Ok l /\ l0 <= l.
Proof. exact C60_estimate_main. Qed.
Print Assumptions C60_estimate.

(** An error at the starting values is passed on, and there is no estimate if they are
    outside the box. *)
Theorem C60_fails : forall optim solve, descends optim ->
  forall lfun p_beta p_theta prev start, (1 <= p_theta)%nat ->
  (forall x, prev = Some x -> length x = (p_theta + p_beta)%nat) ->
  start = match prev with Some x => x | None => repeat (1 / 2) p_theta ++ repeat 0 p_beta end ->
  (in_box p_theta start -> forall err, lfun start = Throw err -> optimize_glmm optim solve lfun p_beta p_theta prev = Throw err) /\
  (~ in_box p_theta start -> forall r, optimize_glmm optim solve lfun p_beta p_theta prev <> Ok r).
Proof. exact C60_fails_main. Qed.
Print Assumptions C60_fails.

(** The previous fit of another model is not rejected: with one estimate too few, that of
    the variance parameter is used for the fixed effect too. *)
Theorem C60_recycled_refuted : exists optim solve lfun prev e Sigma, descends optim /\ length prev = 1%nat /\
  optimize_glmm optim solve lfun 1 1 (Some prev) = Ok (e, Sigma) /\ e = prev ++ prev.
Proof. exact C60_recycled_main. Qed.
Print Assumptions C60_recycled_refuted.

Example C60_case : descends valley_optim /\
  optimize_glmm valley_optim solve_two valley_lfun 1 1 None = Ok ([-1; 1], [[1/4; - (1/2)]; [- (1/2); 2]]).
Proof. exact C60_case_main. Qed.

(** If the Hessian and its inverse are exact, optimize_glmm returns the covariance matrix
    that belongs to its estimate. *)
Theorem C61_found : forall optim solve lfun p_beta p_theta prev start L e Sigma, (1 <= p_theta)%nat ->
  start = match prev with Some x => x | None => repeat (1 / 2) p_theta ++ repeat 0 p_beta end -> length start = (p_theta + p_beta)%nat ->
  (forall f x H, optim f (repeat 0 (p_theta + p_beta)) = Ok (x, H) ->
     hessian (p_theta + p_beta) (fun y => -2 * L (map (fun ab => fst ab + snd ab) (combine y start))) x H) ->
  (forall H S, solve H = Ok S -> are_inverse (p_theta + p_beta) H S) ->
  optimize_glmm optim solve lfun p_beta p_theta prev = Ok (e, Sigma) ->
  observed_covariance (p_theta + p_beta) L e Sigma.
Proof. exact C61_found_main. Qed.
Print Assumptions C61_found.

(** The reported estimates have the same loglikelihood if this does not depend on the
    signs of the variance parameters.  The reported covariances are then right up to
    sign, and the standard errors, z-statistics and p-values of the summary are right. *)
Theorem C61_reported : forall lower p_theta p_beta nt nb L e Sigma V0 f, (forall b, In b lower -> b = Zero) ->
  signless p_theta (p_theta + p_beta) L -> observed_covariance (p_theta + p_beta) L e Sigma ->
  make_fit lower p_theta p_beta nt nb (e, Sigma) = f -> ft_Sigma f = Some V0 ->
  exists s, (forall i, s i = 1 <-> (p_theta <= i)%nat \/ 0 <= nth i e 0) /\ (forall i, sign (s i)) /\
    length (ft_estim f) = (p_theta + p_beta)%nat /\
    (forall i, (i < p_theta + p_beta)%nat -> nth i (ft_estim f) 0 = s i * nth i e 0) /\
    L (ft_estim f) = L e /\
    (exists V, observed_covariance (p_theta + p_beta) L (ft_estim f) V) /\
    forall V, observed_covariance (p_theta + p_beta) L (ft_estim f) V ->
      (forall i j, (i < p_theta + p_beta)%nat -> (j < p_theta + p_beta)%nat -> entry V0 i j = s i * s j * entry V i j) /\
      forall upper, length (summary upper (ft_estim f) V0) = (p_theta + p_beta)%nat /\
        forall i d, (i < p_theta + p_beta)%nat ->
          let se := sqrt (entry V i i) in let z := Rabs (nth i (ft_estim f) 0 / se) in
          nth i (summary upper (ft_estim f) V0) d = (se, z, 2 * upper z).
Proof. exact C61_reported_main. Qed.
Print Assumptions C61_reported.

(** But the covariances are not right: the sign of the estimate is changed, and that of
    its covariances is not. *)
Theorem C61_covariances_refuted : exists optim solve lfun L e Sigma V0 V,
  descends optim /\
  (forall f x H, optim f (repeat 0 2) = Ok (x, H) -> hessian 2 (fun y => -2 * L (map (fun ab => fst ab + snd ab) (combine y [1/2; 0]))) x H) /\
  (forall H S, solve H = Ok S -> are_inverse 2 H S) /\
  (forall x, length x = 2%nat -> lfun x = Ok (L x)) /\ signless 1 2 L /\
  optimize_glmm optim solve lfun 1 1 None = Ok (e, Sigma) /\
  let f := make_fit [Zero] 1 1 ["a"%string] ["x"%string] (e, Sigma) in
  ft_estim f = [1; 1] /\ ft_Sigma f = Some V0 /\ observed_covariance 2 L (ft_estim f) V /\ entry V0 0 1 = - (1/2) /\ entry V 0 1 = 1/2.
Proof. exact C61_covariances_main. Qed.
Print Assumptions C61_covariances_refuted.

(** coef and vcov list all the parameters with their names, those of the random effects
    first. *)
Theorem C62_coef : forall f, (1 <= ft_ptheta f)%nat -> (1 <= ft_pbeta f)%nat -> length (ft_estim f) = (ft_ptheta f + ft_pbeta f)%nat ->
  length (ft_names_theta f) = ft_ptheta f -> length (ft_names_beta f) = ft_pbeta f ->
  let names := map (append "RE") (ft_names_theta f) ++ ft_names_beta f in
  coef f = Ok (combine (map Some names) (map Some (ft_estim f))) /\ vcov f = Ok (map Some names, ft_Sigma f).
Proof. exact C62_coef_main. Qed.
Print Assumptions C62_coef.

(** Without fixed effects coef has two more entries, a missing value and the last
    estimate once more, and vcov stops with an error. *)
Theorem C62_no_fixed_refuted : forall f, (1 <= ft_ptheta f)%nat -> ft_pbeta f = O -> length (ft_estim f) = ft_ptheta f ->
  length (ft_names_theta f) = ft_ptheta f -> ft_names_beta f = [] ->
  (exists c, coef f = Ok c /\ map snd c = map Some (ft_estim f) ++ [None; nth_error (ft_estim f) (ft_ptheta f - 1)]) /\
  vcov f = Throw RuntimeError.
Proof. exact C62_no_fixed_main. Qed.
Print Assumptions C62_no_fixed_refuted.

Example C62_case :
  coef (mkFit [2; 3; -1] None 1 2 ["ability"] ["x"; "y"])%string =
    Ok [(Some "REability", Some 2); (Some "x", Some 3); (Some "y", Some (-1))]%string /\
  coef (mkFit [2] None 1 0 ["ability"] [])%string = Ok [(Some "REability", Some 2); (None, None); (None, Some 2)]%string /\
  vcov (mkFit [2] None 1 0 ["ability"] [])%string = Throw RuntimeError.
Proof. repeat split. Qed.
