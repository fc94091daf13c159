(** R/fit.R: glmm, from its arguments to a fit; with find_lfun_glmm_internal and
    find_lfun_AGQ of R/loglikelihood.R, find_lfun_Laplace of R/laplace.R, check_weights and
    has_re of R/utility.R, and parse_formula of R/model_frames.R up to what lme4 and stats do.
    Numbers are exact reals.  Output and the list of unused options (Model/Control.v) are
    left out. *)
From Coq Require Import String List ZArith Arith Reals Bool.
From Verif Require Import Model.Base Model.Family Model.GLMM Model.SplitFrame Model.Vectors Model.Frames Model.Indexing Model.Subexpr Model.FindIndices Model.Flatten
  Model.SplitFormula Model.FindModfr Model.MultiNormal Model.IS Model.HOL Model.LfunSR Model.Control Model.Fit Spec.Numbers.
Import ListNotations.
Local Open Scope string_scope.
Local Open Scope R_scope.
Notation length := List.length.

(** check_weights, R/utility.R:76-83: .Machine$double.eps^0.5 is 2^-26; NULL is [].  (Where
    the two nearest integers are equally far, it makes no difference which is taken.) *)
Definition round (x : R) : R := IZR (Int_part (x + 1 / 2)).
Definition tol : R := / 67108864.
Definition check_weights (weights : list R) : outcome unit :=
  if forallb (fun w => Rltb (Rabs (w - round w)) tol) weights then Ok tt else Throw RuntimeError.

(** has_re, R/utility.R:1-3: lme4's findbars looks for bars in the first two arguments of
    every call (in the only one, if there is one), but not inside of a bar. *)
Fixpoint finds_bar (x : rexpr) : bool :=
  match x with
  | Const _ | Name _ => false
  | Call [h; a] => is_name h "|" || finds_bar a
  | Call (h :: a :: b :: _) => is_name h "|" || finds_bar a || finds_bar b
  | Call _ => false
  end.
Definition has_re (formula : rexpr) : bool :=
  match formula with Call xs => finds_bar (last xs (Const 0)) | _ => finds_bar formula end.

(** The other packages, as in the files about the functions that use them. *)
Record externals := mkExternals {
  (** Functions in Sub() terms; lme4::glFormula; glm(method = "model.frame") with
      model.matrix; parse_subformula; sparse matrices. *)
  x_other : string -> list (list R) -> outcome (list R);
  x_glFormula : rexpr -> outcome (modfr Rnum);
  x_glm : rexpr -> outcome (modfr Rnum);
  x_sub : rexpr -> variables R -> outcome (modfr Rnum);
  x_sparse : nat -> list (list R) -> csc R;
  (** find_devfun_laplace_1, R/loglikelihood.R:13-18, and what there is after a call of the
      function: the deviance, and from compute_normal_approx, lines 80-90, mean and precision. *)
  x_devfun : modfr Rnum -> retrms Rnum -> outcome (list R -> outcome (R * rvec * rmat));
  (** lme4::updateGlmerDevfun with nAGQ. *)
  x_AGQ : modfr Rnum -> retrms Rnum -> R -> outcome (list R -> outcome R);
  (** matrix(rnorm(n * nIS), nrow = n); chol, solve and determinant; solve(A, B); the
      functions of the family object of R. *)
  x_rnorm : nat -> nat -> rmat;
  x_chol : rmat -> rmat;
  x_solve : rmat -> rmat;
  x_determinant : rmat -> R;
  x_solve2 : rmat -> rmat -> rmat;
  x_family : string -> string -> rfamily;
  (** Eigen and std::isnormal; the beliefs that integrate() stores, with nAGQ points and nSL
      levels. *)
  x_inverse : rmat -> rmat;
  x_det : rmat -> R;
  x_isnormal : R -> bool;
  x_T : Type;
  x_scope : x_T -> list Z;
  x_eval : x_T -> rvec -> R;
  x_deriv : x_T -> rvec -> rvec;
  x_deriv2 : x_T -> rvec -> rmat;
  x_integral : R -> nat -> (rvec -> outcome R) -> (rvec -> outcome rvec) -> (rvec -> outcome rmat) ->
               nat -> mnormal -> list Z -> outcome x_T;
  (** optim, solve(hess) and numDeriv::grad. *)
  x_optim : (list R -> outcome dev) -> list R -> outcome (list R * list (list R));
  x_inv : list (list R) -> outcome (list (list R));
  x_grad : (list R -> outcome R) -> list R -> outcome rvec;
  (** Names of the parameters. *)
  x_names_theta : modfr Rnum -> list string;
  x_names_beta : modfr Rnum -> list string
}.

Section Glmm.
Context (X : externals).

(** parse_formula, R/model_frames.R:3-69, for a family object with this name; the four
    calls of glFormula, and of glm, differ in which of weights and offset there are. *)
Definition parse_formula (family : string) (formula : rexpr) : outcome (modfr Rnum) :=
  if has_re formula then
    if String.eqb family "gaussian" then Throw RuntimeError else x_glFormula X formula
  else x_glm X formula.

(** What R/splitframe.R reads of a model frame. *)
Definition split_frame (m : modfr Rnum) (r : retrms Rnum) : frame Rnum :=
  mkFrame Rnum (mo_X _ m) (mo_p _ m) (rt_Zt _ r) (rt_Lambdat _ r) (rt_Lind _ r) (mo_response _ m) (mo_weights _ m).

(** A number that is used as a size; only those that are natural numbers are modelled. *)
Definition natural (x : R) : outcome nat :=
  let n := Z.to_nat (Int_part x) in if Reqb (INR n) x then Ok n else NoFuel.

Section Method.
Context (family link : string) (m : modfr Rnum) (r : retrms Rnum).
Context (devfun : list R -> outcome (R * rvec * rmat)).

(** find_lfun_Laplace, R/laplace.R:11-25. *)
Definition find_lfun_Laplace (order : R) : outcome (list R -> outcome R) :=
  _ <- (if Reqb order 1 then Ok tt
        else _ <- check_if_order_implemented family link order ;; if Reqb order 2 then Ok tt else Throw RuntimeError) ;;
  Ok (fun x => d <- devfun x ;; let '(dv, mean, precision) := d in
               lfun_Laplace (x_solve2 X) order family link dv x m r mean precision).

(** find_lfun_AGQ, R/loglikelihood.R:33-36. *)
Definition find_lfun_AGQ (nAGQ : R) : outcome (list R -> outcome R) :=
  f <- x_AGQ X m r nAGQ ;; Ok (fun x => d <- f x ;; Ok (- d / 2)).

(** find_lfun_IS, R/IS.R:75-88. *)
Definition find_lfun_IS (nIS : R) : outcome (list R -> outcome R) :=
  k <- natural nIS ;;
  let z_poss := x_rnorm X (cs_rows (rt_Zt _ r)) k in
  Ok (fun x => d <- devfun x ;; let '(_, mean, precision) := d in
               lfun_IS (x_chol X) (x_solve X) (x_determinant X) z_poss k (x_family X family link) m r x mean precision).

(** find_lfun_SR, R/loglikelihood.R:38-78 (Model/LfunSR.v). *)
Definition the_lfun_SR (nSL nAGQ : R) : outcome (list R -> outcome R) :=
  k <- natural nSL ;;
  s <- LfunSR.find_lfun_SR (x_inverse X) (x_det X) (x_isnormal X) (x_T X) (x_scope X) (x_eval X) (x_deriv X) (x_deriv2 X) (x_integral X nAGQ k)
         (split_frame m r) (length (rt_theta _ r)) family link k ;;
  Ok (fun x => d <- devfun x ;; let '(dv, mean, precision) := d in
               lfun_SR (x_inverse X) (x_det X) (x_isnormal X) (x_T X) (x_scope X) (x_eval X) (x_deriv X) (x_deriv2 X) (x_integral X nAGQ k)
                 (fun _ => (- dv / 2, mean, fun i j => nth (Z.to_nat j) (nth (Z.to_nat i) precision []) 0)) s x).

(** find_lfun_glmm_internal, R/loglikelihood.R:20-31. *)
Definition find_lfun_glmm_internal (method : string) (con : named) : outcome (list R -> outcome R) :=
  if String.eqb method "Laplace" then order <- needed (lookup "order" con) ;; find_lfun_Laplace order
  else if String.eqb method "AGQ" then nAGQ <- needed (lookup "nAGQ" con) ;; find_lfun_AGQ nAGQ
  else if String.eqb method "SR" then nSL <- needed (lookup "nSL" con) ;; nAGQ <- needed (lookup "nAGQ" con) ;; the_lfun_SR nSL nAGQ
  else if String.eqb method "IS" then nIS <- needed (lookup "nIS" con) ;; find_lfun_IS nIS
  else Throw RuntimeError.

(** find_laplace_divergence, R/hol.R:36-64, as it is called in R/fit.R:66. *)
Definition laplace_divergence (opt : list R * list (list R)) : outcome R :=
  delta_1 <- x_grad X (fun x => d <- devfun x ;; let '(_, mean, precision) := d in
                                find_epsilon_1 (x_solve2 X) family link x m r mean precision) (fst opt) ;;
  Ok (find_laplace_divergence delta_1 (snd opt)).
End Method.

(** What is returned: an object of class glmmFit, or the list made by optimize_glmm.
    [unreliable] is the warning of R/fit.R:67-69. *)
Inductive glmm_result :=
| GlmmFit (f : fit) (lfun : list R -> outcome R) (m : modfr Rnum) (method : string) (con : named) (divergence : option R) (unreliable : bool)
| OptList (opt : list R * list (list R)) (divergence : option R) (unreliable : bool).

(** glmm, R/fit.R:46-91; [family] and [link] of the family object, [prev] is
    prev_fit$estim. *)
Definition glmm (formula : rexpr) (subforms : list rexpr) (data : data_list) (family link : string) (method : list string)
    (control : named) (weights : list R) (prev : option (list R)) : outcome glmm_result :=
  _ <- check_weights weights ;;
  con' <- find_control_with_defaults control method ;;
  let con := fst con' in
  m <- find_modfr_glmm (x_other X) (parse_formula family) (x_sub X) (x_sparse X) formula subforms data ;;
  match mo_re _ m, method with
  | Some r, [meth] =>
      devfun_laplace_1 <- x_devfun X m r ;;
      lfun <- find_lfun_glmm_internal family link m r devfun_laplace_1 meth con ;;
      let p_beta := mo_p _ m in
      let p_theta := length (rt_theta _ r) in
      opt <- optimize_glmm (x_optim X) (x_inv X) lfun p_beta p_theta prev ;;
      check_Laplace <- needed (lookup "check_Laplace" con) ;;
      du <- (if Reqb check_Laplace 0 then Ok (None, false)
             else
               d <- laplace_divergence family link m r devfun_laplace_1 opt ;;
               threshold <- needed (lookup "divergence_threshold" con) ;;
               Ok (Some d, exceeds d threshold)) ;;
      if forallb (fun b => match b with Zero => true | MinusInf => false end) (rt_lower _ r) then
        Ok (GlmmFit (make_fit (rt_lower _ r) p_theta p_beta (x_names_theta X m) (x_names_beta X m) opt) lfun m meth con (fst du) (snd du))
      else Ok (OptList opt (fst du) (snd du))
  | _, _ => Throw RuntimeError
  end.

(** find_lfun_glmm, R/loglikelihood.R:5-11, for a frame with random effects (without, lme4
    stops). *)
Definition find_lfun_glmm (family link : string) (m : modfr Rnum) (method : list string) (control : named) : outcome (list R -> outcome R) :=
  match mo_re _ m with
  | None => Throw RuntimeError
  | Some r =>
      devfun_laplace_1 <- x_devfun X m r ;;
      con' <- find_control_with_defaults control method ;;
      match method with
      | [meth] => find_lfun_glmm_internal family link m r devfun_laplace_1 meth (fst con')
      | _ => Throw RuntimeError
      end
  end.
End Glmm.
