(** C44, C51: importance sampling. *)
From Coq Require Import List Reals ZArith Lia Lra Arith.
From Coquelicot Require Import Coquelicot.
From Verif Require Import Model.Base Model.Family Model.SplitFrame Model.Frames Model.IS Spec.Numbers Spec.FamilySpec Spec.GLMMSpec Spec.FramesSpec Spec.ISSpec
  Proofs.ISMain Proofs.ISEstimate Proofs.ISFamily Proofs.FramesCases.
From Verif Require Spec.MatrixSpec.
Import ListNotations.
Local Open Scope R_scope.

(** C44: the integrand at each of the columns of u is the one of the model at that
    column. *)
Theorem C44_integrand : forall fam n m r y w theta beta, fits n m r y w theta beta ->
  forall nIS u, (0 < nIS)%nat -> sized (nrandom m) nIS u ->
  find_log_integrand fam (theta ++ beta) m r nIS u =
  Ok (map (fun j => log_joint n (linkinv fam) (dev_resids fam) m y w beta theta (draw u j)) (seq 0 nIS)).
Proof. exact C44_integrand_main. Qed.
Print Assumptions C44_integrand.

(** The draws are functions T of the standard normal ones, and g their density.  The
    result is the logarithm of the average of integrand / g, at least the average of the
    logarithms; the mean of integrand / g over the draws is the integral. *)
Theorem C44_estimate : forall fam n m r y w theta beta chol solve determinant mean P, fits n m r y w theta beta ->
  length mean = nrandom m -> routines (nrandom m) chol solve determinant P ->
  let d := nrandom m in let lj := log_joint n (linkinv fam) (dev_resids fam) m y w beta theta in
  exists T g, (forall u, 0 < g u) /\ space d g = 1 /\
  (forall nIS z, sized d nIS z -> sized d nIS (transform_normal chol solve z nIS mean P) /\
     forall j, (j < nIS)%nat -> draw (transform_normal chol solve z nIS mean P) j = T (draw z j)) /\
  (forall h, space d (fun z => h (T z) * std_normal z) = space d (fun u => h u * g u)) /\
  space d (fun z => exp (lj (T z)) / g (T z) * std_normal z) = space d (fun u => exp (lj u)) /\
  forall nIS z, (0 < nIS)%nat -> sized d nIS z ->
    lfun_IS chol solve determinant z nIS fam m r (theta ++ beta) mean P =
      Ok (ln (average nIS (fun j => exp (lj (T (draw z j))) / g (T (draw z j))))) /\
    average nIS (fun j => lj (T (draw z j)) - ln (g (T (draw z j)))) <= ln (average nIS (fun j => exp (lj (T (draw z j))) / g (T (draw z j)))).
Proof. exact C44_estimate_main. Qed.
Print Assumptions C44_estimate.

(** T is z -> mean + C^T z for the inverse C of the Cholesky factor R. *)
Theorem C44_draws : forall chol solve determinant d mean P, routines d chol solve determinant P -> length mean = d -> forall nIS z, sized d nIS z ->
  sized d nIS (transform_normal chol solve z nIS mean P) /\
  forall j, (j < nIS)%nat -> draw (transform_normal chol solve z nIS mean P) j = image d (solve (chol P)) mean (draw z j).
Proof. exact C44_draws_main. Qed.
Print Assumptions C44_draws.

(** So the covariance matrix of the draws is the inverse of R R^T, *)
Theorem C44_covariance : forall d chol solve determinant P, routines d chol solve determinant P ->
  forall i j, (i < d)%nat -> (j < d)%nat ->
  sumR d (fun k => image_cov d (solve (chol P)) i k * sumR d (fun l => at_ (chol P) k l * at_ (chol P) j l)) = MatrixSpec.unit_entry i j.
Proof. exact C44_covariance_main. Qed.
Print Assumptions C44_covariance.

(** not the inverse of P = R^T R. *)
Theorem C44_covariance_refuted : exists d chol solve determinant P, routines d chol solve determinant P /\
  exists i j, (i < d)%nat /\ (j < d)%nat /\ sumR d (fun k => image_cov d (solve (chol P)) i k * at_ P k j) <> MatrixSpec.unit_entry i j.
Proof. exact C44_covariance_refuted_main. Qed.
Print Assumptions C44_covariance_refuted.

(** A correlated intercept and slope, theta = (1, 0, 1), beta = (0), two draws. *)
Example C44_case : fits 2 case_m3 case_r2 [0; 1] [1; 1] [1; 0; 1] [0] /\ nrandom case_m3 = 2%nat /\
  routines 2 (fun _ => case_R) (fun _ => case_C) (fun _ => 1) case_P /\ sized 2 2 [[1; -1]; [0; 0]].
Proof. exact (conj (case_fits 0) (conj eq_refl (conj case_routines (proj1 case_unclipped)))). Qed.

(** C51: for a binomial response and where no mean is clipped, the integrand is the
    log-likelihood that src/Family.cpp finds, and the normal density of the random
    effects, less a number that depends on the responses only. *)
Theorem C51_integrand : forall l P thresh n m r y w theta beta, fits n m r y w theta beta -> inverse_link l P -> List.Forall (fun a => 0 <= a <= 1) y ->
  forall nIS u, (0 < nIS)%nat -> sized (nrandom m) nIS u ->
  (forall j k, (j < nIS)%nat -> (k < n)%nat -> let e := predictor m beta theta (draw u j) k in tiny <= P e <= 1 - tiny /\ (l = Probit -> Rabs e <= thresh)) ->
  exists v, (forall j, (j < nIS)%nat -> evaluate Rnum (mkFamily l Binomial) (map (predictor m beta theta (draw u j)) (seq 0 n)) y w = Ok (v j)) /\
    find_log_integrand (r_binomial thresh l) (theta ++ beta) m r nIS u = Ok (map (fun j => v j + ln (std_normal (draw u j)) - saturated n y w) (seq 0 nIS)).
Proof. exact C51_integrand_main. Qed.
Print Assumptions C51_integrand.

(** Not so where a mean is clipped. *)
Theorem C51_clipped_refuted : exists l P thresh n m r y w theta beta nIS u, fits n m r y w theta beta /\ inverse_link l P /\ List.Forall (fun a => 0 <= a <= 1) y /\
  (0 < nIS)%nat /\ sized (nrandom m) nIS u /\ exists v x, evaluate Rnum (mkFamily l Binomial) (map (predictor m beta theta (draw u 0)) (seq 0 n)) y w = Ok v /\
    find_log_integrand (r_binomial thresh l) (theta ++ beta) m r nIS u = Ok [x] /\ x < v + ln (std_normal (draw u 0)) - saturated n y w.
Proof. exact C51_clipped_refuted_main. Qed.
Print Assumptions C51_clipped_refuted.

Example C51_case : inverse_link Logit logistic /\ sized (nrandom case_m3) 2 [[1; -1]; [0; 0]] /\
  forall j k, (j < 2)%nat -> (k < 2)%nat -> tiny <= logistic (predictor case_m3 [0] [1; 0; 1] (draw [[1; -1]; [0; 0]] j) k) <= 1 - tiny.
Proof. exact (conj (or_introl (conj eq_refl (fun t => eq_refl))) case_unclipped). Qed.
