(** R/IS.R: importance sampling.  Numbers are exact; matrices are lists of rows. *)
From Coq Require Import List Reals ZArith Bool Arith.
From Verif Require Import Model.Base Model.Family Model.GLMM Model.SplitFrame Model.Frames Model.Vectors Spec.Numbers.
Import ListNotations.
Local Open Scope R_scope.

(** from:to, which counts down if to < from. *)
Definition colon (from to : nat) : list nat :=
  if Nat.leb from to then seq from (S (to - from)) else rev (seq to (S (from - to))).

(** x[i] for numbers i > 0 and 0, which is left out; beyond the end it is NA, here
    None. *)
Definition elements {A} (x : list A) (i : list nat) : list (option A) :=
  map (fun k => nth_error x (k - 1)) (filter (fun k => negb (Nat.eqb k 0)) i).

(** No NA; the results of calculations with NA are not modelled. *)
Definition known {A} (x : list (option A)) : outcome (list A) :=
  mapM (fun a => match a with Some y => Ok y | None => Throw RuntimeError end) x.

(** as.numeric(X %*% beta) where X has p columns and beta is a vector: in R's matprod
    (src/main/array.c) a vector of p elements is a column, otherwise, if p is 1, a row;
    and otherwise a matrix of size 0 x 0. *)
Definition matrix_times_vector (X : rmat) (p : nat) (beta : list (option R)) : outcome rvec :=
  if Nat.eqb (length beta) p then b <- known beta ;; Ok (mvmul X b)
  else if Nat.eqb p 1 then b <- known beta ;; Ok (concat (map (fun x => map (fun row => vdot row [x]) X) b))
  else if Nat.eqb p 0 then Ok [] else Throw RuntimeError.

(** find_XBeta, lines 1-6. *)
Definition find_XBeta (pars : rvec) (m : modfr Rnum) (r : retrms Rnum) : outcome rvec :=
  let n_fixed := mo_p _ m in
  let n_random := length (rt_theta _ r) in
  let beta := elements pars (colon (n_random + 1) (n_random + n_fixed)) in
  matrix_times_vector (mo_X _ m) n_fixed beta.

(** The dense form of a sparse matrix, and matrix products. *)
Definition dense (m : csc R) : rmat :=
  map (fun i => map (fun col => nsum Rnum (map snd (filter (fun e => Nat.eqb (fst e) i) col))) (cs_cols m)) (seq 0 (cs_rows m)).
Definition column (j : nat) (m : rmat) : rvec := map (fun row => nth j row 0) m.
Definition transpose (cols : nat) (m : rmat) : rmat := map (fun j => column j m) (seq 0 cols).
(** A %*% B, where B has [cols] columns. *)
Definition mmul (cols : nat) (A B : rmat) : rmat := map (fun row => map (vdot row) (transpose cols B)) A.
(** crossprod(A, B): the transpose of A times B. *)
Definition crossprod (colsA colsB : nat) (A B : rmat) : rmat := mmul colsB (transpose colsA A) B.

(** find_LambdatThetaZt, lines 8-18. *)
Definition find_LambdatThetaZt (pars : rvec) (r : retrms Rnum) : outcome rmat :=
  let n_random := length (rt_theta _ r) in
  theta <- known (elements pars (colon 1 n_random)) ;;
  x <- known (elements theta (map Z.to_nat (rt_Lind _ r))) ;;
  LambdatTheta <- set_x (rt_Lambdat _ r) x ;;
  Ok (mmul (length (cs_cols (rt_Zt _ r))) (dense LambdatTheta) (dense (rt_Zt _ r))).

(** rep(x, each = r) *)
Definition rep_each {A} (x : list A) (r : nat) : list A := concat (map (fun a => repeat a r) x).

(** as.numeric of a matrix with [cols] columns: one column after the other. *)
Definition as_numeric (cols : nat) (m : rmat) : rvec := concat (transpose cols m).

(** matrix(x, nrow), lines 53: by columns. *)
Definition as_matrix (x : rvec) (nrow : nat) : rmat :=
  map (fun i => map (fun k => nth (k * nrow + i) x 0) (seq 0 (length x / nrow))) (seq 0 nrow).

(** find_eta, lines 20-35, for a matrix u with r columns, and n observations.  (The
    lengths of the summands agree.) *)
Definition find_eta (n r : nat) (u : rmat) (XBeta : rvec) (LambdatThetaZt : rmat) : rvec :=
  let utLambdatThetaZt_num := as_numeric n (crossprod r n u LambdatThetaZt) in
  match XBeta with
  | [] => utLambdatThetaZt_num
  | _ => vadd (rep_each XBeta r) utLambdatThetaZt_num
  end.

(** dnorm(x, log = TRUE) *)
Definition log_dnorm (x : R) : R := - (x * x / 2) - ln (sqrt (2 * PI)).

(** The vectorised functions of a family object of R, here given by what they do to
    single elements. *)
Record rfamily := mkRfamily { linkinv : R -> R; dev_resids : R -> R -> R -> R }.

(** find_log_integrand, lines 38-60: the function of a matrix u with r columns.  A factor
    is not an argument that dev.resids accepts. *)
Definition find_log_integrand (fam : rfamily) (pars : rvec) (m : modfr Rnum) (re : retrms Rnum) (r : nat) (u : rmat) : outcome rvec :=
  y <- match mo_response _ m with Numeric y => Ok y | Factor _ => Throw RuntimeError end ;;
  let weights := match mo_weights _ m with
                 | Some (w :: ws) => w :: ws
                 | _ => repeat 1 (length y)
                 end in
  XBeta <- find_XBeta pars m re ;;
  LambdatThetaZt <- find_LambdatThetaZt pars re ;;
  let n := length (cs_cols (rt_Zt _ re)) in
  let eta_num := find_eta n r u XBeta LambdatThetaZt in
  let mu_num := map (linkinv fam) eta_num in
  let y_rep := rep_each y r in
  let weights_rep := rep_each weights r in
  dev_resids_num <- zip3 (dev_resids fam) y_rep mu_num weights_rep ;;
  let dev_resids := as_matrix dev_resids_num r in
  let rowSums := map (fun row => fold_right Rplus 0 row) dev_resids in
  let colSums := map (fun j => fold_right Rplus 0 (map log_dnorm (column j u))) (seq 0 r) in
  Ok (vadd (map (fun s => - s / 2) rowSums) colSums).

(** chol and solve, and the determinant, of R. *)
Section Approx.
Context (chol solve : rmat -> rmat) (determinant : rmat -> R).

(** transform_normal, lines 62-65: mean + crossprod(C, z), for a matrix z of r
    columns. *)
Definition transform_normal (z : rmat) (r : nat) (mean : rvec) (precision : rmat) : rmat :=
  let C := solve (chol precision) in
  map2 (fun m row => map (fun x => m + x) row) mean (crossprod (length precision) r C z).

(** find_log_weights, lines 67-73. *)
Definition find_log_weights (z : rmat) (r : nat) (log_integrand : nat -> rmat -> outcome rvec) (mean : rvec) (precision : rmat) : outcome rvec :=
  let u := transform_normal z r mean precision in
  let log_det_prec := ln (Rabs (determinant precision)) in
  let normal_part := map (fun j => fold_right Rplus 0 (map log_dnorm (column j z)) + log_det_prec / 2) (seq 0 r) in
  l <- log_integrand r u ;;
  Ok (vsub l normal_part).

Definition mean_of (x : rvec) : R := fold_right Rplus 0 x / INR (length x).

(** The function of find_lfun_IS, lines 79-85, given the draws and the normal
    approximation. *)
Definition lfun_IS (z : rmat) (nIS : nat) (fam : rfamily) (m : modfr Rnum) (re : retrms Rnum) (pars : rvec) (mean : rvec) (precision : rmat) : outcome R :=
  log_weights <- find_log_weights z nIS (find_log_integrand fam pars m re) mean precision ;;
  let b := mean_of log_weights in
  Ok (ln (mean_of (map (fun w => exp (w - b)) log_weights)) + b).
End Approx.

(** The family binomial of R's stats package (src/library/stats/R/family.R and
    src/library/stats/src/family.c) with its two links, in exact arithmetic: the
    thresholds of logit are at -30 and 30, eps being 2^-52; those of probit are
    - [thresh] and [thresh], for thresh = - qnorm(eps). *)
Definition y_log_y (y mu : R) : R := if Reqb y 0 then 0 else y * ln (y / mu).
Definition binomial_dev (y mu wt : R) : R := 2 * wt * (y_log_y y mu + y_log_y (1 - y) (1 - mu)).
Definition eps52 : R := / 4503599627370496.
Definition logit_linkinv (eta : R) : R :=
  let x := if Rltb eta (-30) then eps52 else if Rltb 30 eta then / eps52 else exp eta in
  x / (1 + x).
Definition probit_linkinv (thresh eta : R) : R :=
  normal_cdf (Rmin (Rmax eta (- thresh)) thresh).
Definition r_binomial (thresh : R) (l : link) : rfamily :=
  mkRfamily (match l with Logit => logit_linkinv | Probit => probit_linkinv thresh end) binomial_dev.
