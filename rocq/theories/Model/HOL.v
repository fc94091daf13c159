(** R/hol.R and R/laplace.R: the second-order Laplace approximation.  Numbers are exact;
    matrices are lists of rows. *)
From Coq Require Import String List Reals ZArith Bool Arith.
From Verif Require Import Model.Base Model.Family Model.GLMM Model.SplitFrame Model.Frames Model.Vectors Model.IS Spec.Numbers.
Import ListNotations.
Local Open Scope R_scope.

(** crossprod(A, v), A having [cols] columns: the transpose of A times v. *)
Definition crossprod_vec (cols : nat) (A : rmat) (v : rvec) : rvec := mvmul (transpose cols A) v.
(** diag(M) *)
Definition diag (m : rmat) : rvec := map (fun i => nth i (nth i m []) 0) (seq 0 (length m)).
(** x * y and x^k for vectors, M^k for matrices: by elements. *)
Definition vmul : rvec -> rvec -> rvec := map2 Rmult.
Definition vpow (v : rvec) (k : nat) : rvec := map (fun x => x ^ k) v.
Definition mpow (m : rmat) (k : nat) : rmat := map (fun row => vpow row k) m.
Definition vsum (v : rvec) : R := fold_right Rplus 0 v.

Section HOL.
(** Matrix::solve(H, B). *)
Context (solve : rmat -> rmat -> rmat).

(** find_M, R/hol.R:1-5, for n observations; [precision] is that of the normal
    approximation. *)
Definition find_M (n : nat) (precision LambdatThetaZt : rmat) : rmat :=
  crossprod n n LambdatThetaZt (solve precision LambdatThetaZt).

(** find_epsilon_1, R/hol.R:7-35, given the mean and the precision of the normal
    approximation, which compute_normal_approx takes from lme4 (R/loglikelihood.R:80-90).
    A factor as response becomes the vector of its codes where it is passed to the C++
    code (src/RcppExports.cpp:293-317). *)
Definition find_epsilon_1 (familyName linkName : string) (pars : rvec) (m : modfr Rnum) (re : retrms Rnum) (u_hat : rvec) (precision : rmat) : outcome R :=
  modfr_family <- make_family familyName linkName ;;
  XBeta <- find_XBeta pars m re ;;
  LambdatThetaZt <- find_LambdatThetaZt pars re ;;
  let n := length (cs_cols (rt_Zt _ re)) in
  let eta_hat := find_eta n 1 (map (fun x => [x]) u_hat) XBeta LambdatThetaZt in
  let response := match mo_response _ m with Numeric y => y | Factor codes => map INR codes end in
  let weights := match mo_weights _ m with
                 | Some (w :: ws) => w :: ws
                 | _ => repeat 1 (length response)
                 end in
  d3 <- evaluateThirdDerivative Rnum modfr_family eta_hat response weights ;;
  d4 <- evaluateFourthDerivative Rnum modfr_family eta_hat response weights ;;
  let gamma_3 := vneg d3 in
  let gamma_4 := vneg d4 in
  let M := find_M n precision LambdatThetaZt in
  let diag_M := diag M in
  let kappa_4 := vsum (vmul gamma_4 (vpow diag_M 2)) in
  let gamma_3_diag_M := vmul gamma_3 diag_M in
  let kappa_13_2 := vdot gamma_3_diag_M (crossprod_vec n M gamma_3_diag_M) in
  let kappa_23_2 := vdot gamma_3 (crossprod_vec n (mpow M 3) gamma_3) in
  Ok (- kappa_4 / 8 + (2 * kappa_23_2 + 3 * kappa_13_2) / 24).

(** is_canonical, R/utility.R:96-99: the default links of the families of R's stats
    package; the call of a function of another name fails. *)
Definition canonical_link (familyName : string) : outcome string :=
  if existsb (String.eqb familyName) ["binomial"%string; "quasibinomial"%string] then Ok "logit"%string
  else if existsb (String.eqb familyName) ["poisson"%string; "quasipoisson"%string] then Ok "log"%string
  else if existsb (String.eqb familyName) ["gaussian"%string; "quasi"%string] then Ok "identity"%string
  else if String.eqb familyName "Gamma" then Ok "inverse"%string
  else if String.eqb familyName "inverse.gaussian" then Ok "1/mu^2"%string
  else Throw RuntimeError.

(** check_if_order_implemented, R/laplace.R:1-9; [order] is a number.  In line 6 both
    conditions are always evaluated. *)
Definition check_if_order_implemented (familyName linkName : string) (order : R) : outcome unit :=
  if Rltb 2 order then Throw RuntimeError
  else
    canonical <- canonical_link familyName ;;
    if Rltb 1 order && negb (String.eqb linkName canonical) then Throw RuntimeError else Ok tt.

(** The function of find_lfun_Laplace, R/laplace.R:11-25, given the value of
    devfun_laplace_1 at x.  For an order that is neither 1 nor 2 there is no lfun to
    return. *)
Definition lfun_Laplace (order : R) (familyName linkName : string) (devfun_laplace_1 : R) (x : rvec) (m : modfr Rnum) (re : retrms Rnum) (u_hat : rvec) (precision : rmat) : outcome R :=
  if Reqb order 1 then Ok (- devfun_laplace_1 / 2)
  else
    _ <- check_if_order_implemented familyName linkName order ;;
    if Reqb order 2 then
      epsilon_1 <- find_epsilon_1 familyName linkName x m re u_hat precision ;;
      Ok (- devfun_laplace_1 / 2 + epsilon_1)
    else Throw RuntimeError.
End HOL.

(** find_laplace_divergence, R/hol.R:44-64, as it is called in R/fit.R:66 (without second
    derivatives); [delta_1] is the gradient of find_epsilon_1 that numDeriv::grad finds. *)
Definition find_laplace_divergence (delta_1 : rvec) (Sigma_1 : rmat) : R :=
  1 / 2 * vsum (vmul delta_1 (crossprod_vec (length delta_1) Sigma_1 delta_1)).
