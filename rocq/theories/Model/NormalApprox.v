(** R/loglikelihood.R: the normal approximation, taken from lme4.  Numbers are exact;
    matrices are lists of rows. *)
From Coq Require Import List Reals.
From Verif Require Import Model.Vectors Model.IS.
Import ListNotations.
Local Open Scope R_scope.

(** What lme4 has after an evaluation of its deviance function: the deviance, PR$delu and
    Matrix::expand(PR$L()), the matrices L and P (lines 82-86).  [af_n] is the number of
    rows and columns of L and P. *)
Record after_devfun := mkAfter {
  af_deviance : R;
  af_delu : rvec;
  af_n : nat;
  af_L : rmat;
  af_P : rmat
}.

(** tcrossprod(L): L times its transpose. *)
Definition tcrossprod (n : nat) (L : rmat) : rmat := mmul n L (transpose n L).

Record normal_approx := mkApprox { l_laplace : R; na_mean : rvec; na_precision : rmat }.

(** compute_normal_approx, R/loglikelihood.R:80-90.  as(..., "sparseMatrix") in line 87
    does not change the entries, so it is left out. *)
Definition compute_normal_approx (a : after_devfun) : normal_approx :=
  let n := af_n a in
  let precision := mmul n (mmul n (transpose n (af_P a)) (tcrossprod n (af_L a))) (af_P a) in
  mkApprox (- af_deviance a / 2) (af_delu a) precision.
