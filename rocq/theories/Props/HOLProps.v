(** C52: the second-order Laplace approximation. *)
From Coq Require Import String List Reals ZArith Lia Lra Arith.
From Coquelicot Require Import Coquelicot.
From Verif Require Import Model.Base Model.Family Model.SplitFrame Model.Frames Model.IS Model.HOL Spec.Numbers Spec.FamilySpec Spec.GLMMSpec Spec.FramesSpec Spec.ISSpec Spec.HOLSpec
  Proofs.HOLMain Proofs.HOLCases.
From Verif Require Spec.MatrixSpec.
Import ListNotations.
Local Open Scope R_scope.

(** Minus the log density has partial derivatives up to the fourth order, and
    find_epsilon_1 is the second-order term that they give, unless a mean is clipped.  G
    is the inverse of the matrix H that is taken for the second derivatives. *)
Theorem C52_second_order : forall solve familyName linkName l P n m r y w theta beta H G u_hat,
  make_family familyName linkName = Ok (mkFamily l Binomial) -> inverse_link l P -> fits n m r y w theta beta ->
  solves solve (nrandom m) n H -> MatrixSpec.are_inverse (nrandom m) H G -> length u_hat = nrandom m ->
  (forall k, (k < n)%nat -> tiny < P (predictor m beta theta u_hat k) < 1 - tiny) ->
  let g u := - log_density n P m y w beta theta u in
  (exists f1 f2 f3 f4, derivatives4 (nrandom m) g f1 f2 f3 f4) /\
  forall f1 f2 f3 f4, derivatives4 (nrandom m) g f1 f2 f3 f4 ->
  find_epsilon_1 solve familyName linkName (theta ++ beta) m r u_hat H =
  Ok (second_order (nrandom m) (at_ G) (fun i j k => f3 i j k u_hat) (fun i j k l => f4 i j k l u_hat)).
Proof. exact C52_second_order_main. Qed.
Print Assumptions C52_second_order.

(** The approximate log-likelihoods of the orders 1 and 2; [dev] is lme4's deviance. *)
Theorem C52_log_likelihood : forall solve P n m r y w theta beta H G u_hat dev,
  (forall t, P t = logistic t) -> fits n m r y w theta beta ->
  solves solve (nrandom m) n H -> MatrixSpec.are_inverse (nrandom m) H G -> length u_hat = nrandom m ->
  (forall k, (k < n)%nat -> tiny < P (predictor m beta theta u_hat k) < 1 - tiny) ->
  lfun_Laplace solve 1 "binomial" "logit" dev (theta ++ beta) m r u_hat H = Ok (- dev / 2) /\
  forall f1 f2 f3 f4, derivatives4 (nrandom m) (fun u => - log_density n P m y w beta theta u) f1 f2 f3 f4 ->
  lfun_Laplace solve 2 "binomial" "logit" dev (theta ++ beta) m r u_hat H =
  Ok (- dev / 2 + second_order (nrandom m) (at_ G) (fun i j k => f3 i j k u_hat) (fun i j k l => f4 i j k l u_hat)).
Proof. exact C52_log_likelihood_main. Qed.
Print Assumptions C52_log_likelihood.

(** No other order, and order 2 for this family and link only. *)
Theorem C52_order : forall solve order familyName linkName dev x m r u_hat H v,
  lfun_Laplace solve order familyName linkName dev x m r u_hat H = Ok v ->
  order = 1 \/ order = 2 /\ familyName = "binomial"%string /\ linkName = "logit"%string.
Proof. exact C52_order_main. Qed.
Print Assumptions C52_order.

(** Where a mean is clipped the term may be wrong, even at the mode and with the true
    second derivatives. *)
Theorem C52_clipped_refuted : exists solve n m r y w theta beta H G u_hat f1 f2 f3 f4,
  fits n m r y w theta beta /\ solves solve (nrandom m) n H /\ MatrixSpec.are_inverse (nrandom m) H G /\ length u_hat = nrandom m /\
  derivatives4 (nrandom m) (fun u => - log_density n logistic m y w beta theta u) f1 f2 f3 f4 /\
  (forall i, (i < nrandom m)%nat -> f1 i u_hat = 0) /\ (forall i j, (i < nrandom m)%nat -> (j < nrandom m)%nat -> f2 i j u_hat = at_ H i j) /\
  exists v, find_epsilon_1 solve "binomial" "logit" (theta ++ beta) m r u_hat H = Ok v /\ v < - (1 / 1000) /\
    Rabs (second_order (nrandom m) (at_ G) (fun i j k => f3 i j k u_hat) (fun i j k l => f4 i j k l u_hat)) < / 10 ^ 7.
Proof. exact C52_clipped_refuted_main. Qed.
Print Assumptions C52_clipped_refuted.

(** The reported divergence is that of normal distributions with the covariance matrix
    Sigma and means a and b, where b is a step of Newton's method from a for the gradient
    delta. *)
Theorem C52_divergence : forall d delta Sigma J, MatrixSpec.are_inverse d Sigma J -> MatrixSpec.symmetric d Sigma -> length delta = d ->
  forall a b, (forall i, (i < d)%nat -> nth i b 0 - nth i a 0 = sumR d (fun j => at_ Sigma i j * nth j delta 0)) ->
  find_laplace_divergence delta Sigma = MatrixSpec.quad d J a b / 2.
Proof. exact C52_divergence_main. Qed.
Print Assumptions C52_divergence.

(** One observation 0, one random effect, theta = 1, beta = 1/2, at the mode -1/2. *)
Example C52_case : fits 1 case_h case_hr [0] [1] [1] [1 / 2] /\ nrandom case_h = 1%nat /\
  solves (fun _ B => [[4 / 5 * at_ B 0 0]]) (nrandom case_h) 1 [[5 / 4]] /\ MatrixSpec.are_inverse (nrandom case_h) [[5 / 4]] [[4 / 5]] /\
  forall k, (k < 1)%nat -> tiny < logistic (predictor case_h [1 / 2] [1] [- (1 / 2)] k) < 1 - tiny.
Proof. exact (conj (case_h_fits (1 / 2)) (conj eq_refl (conj case_h_solves (conj case_h_inverse case_h_inside)))). Qed.

Example C52_divergence_case : MatrixSpec.are_inverse 2 [[2; 1]; [1; 1]] [[1; -1]; [-1; 2]] /\ MatrixSpec.symmetric 2 [[2; 1]; [1; 1]] /\
  forall i, (i < 2)%nat -> nth i [2; 1] 0 - nth i [0; 0] 0 = sumR 2 (fun j => at_ [[2; 1]; [1; 1]] i j * nth j [1; 0] 0).
Proof. exact case_divergence. Qed.
