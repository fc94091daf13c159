(** R/hol.R, lines 44-64: find_laplace_divergence with use_second_derivatives = TRUE.
    Numbers are exact reals. *)
From Coq Require Import List Arith Reals.
From Verif Require Import Model.Base Model.Vectors Model.IS Model.HOL.
Import ListNotations.
Local Open Scope R_scope.

Section Divergence.
(** solve(A), and determinant(A, logarithm = TRUE)$modulus. *)
Context (solve : rmat -> rmat) (log_modulus : rmat -> R).

(** find_laplace_divergence, R/hol.R:47-59; [delta_1] and [gamma_1] are the gradient and the
    matrix of second derivatives of find_epsilon_1 that numDeriv finds (lines 36-42), [p] the
    number of parameters. *)
Definition find_laplace_divergence_2 (p : nat) (delta_1 : rvec) (gamma_1 Sigma_1 : rmat) : R :=
  let J_1 := solve Sigma_1 in
  let Sigma_2 := solve (msub J_1 gamma_1) in
  let diff := crossprod_vec p Sigma_2 delta_1 in
  let log_det_ratio := log_modulus Sigma_1 - log_modulus Sigma_2 in
  let ratio := mmul p J_1 Sigma_2 in
  let trace_ratio := vsum (diag ratio) in
  1 / 2 * (log_det_ratio - INR p + trace_ratio + vsum (vmul diff (crossprod_vec p J_1 diff))).

(** estim_2_1, line 51: the parameters that maximize the approximation of order two. *)
Definition estim_2_1 (p : nat) (estim delta_1 : rvec) (gamma_1 Sigma_1 : rmat) : rvec :=
  vadd estim (crossprod_vec p (solve (msub (solve Sigma_1) gamma_1)) delta_1).
End Divergence.
