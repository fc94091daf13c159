(** Model frames with an offset.  The column "(offset)" of modfr$fr comes from the
    argument [offset] of glmm, R/fit.R:46-54, through parse_formula,
    R/model_frames.R:3-69, or from offset() in the formula.  model.offset does not occur in
    the R code: find_local_term (R/splitframe.R:30-60), find_XBeta, find_eta and
    find_log_integrand (R/IS.R:1-60) and find_epsilon_1 (R/hol.R:7-35) are given the whole
    model frame and read all of it that Model/SplitFrame.v, Model/IS.v and Model/HOL.v have,
    but not this column.  What lme4 computes from the frame (deviance, mode and precision),
    which does read it, is given to these functions as in those files. *)
From Coq Require Import String List ZArith Reals.
From Verif Require Import Model.Base Model.SplitFrame Model.Vectors Model.MultiNormal Model.Frames Model.IS Model.HOL Model.LfunSR Spec.Numbers.
Import ListNotations.
Local Open Scope R_scope.

(** A frame, with model.offset of its data: NULL is None. *)
Record with_offset (A : Type) := mkOffset { of_frame : A; of_offset : option (list R) }.
Arguments mkOffset {A} _ _.
Arguments of_frame {A} _.
Arguments of_offset {A} _.

(** find_lfun_SR, R/loglikelihood.R:38-78: its setup, for a model frame with offset. *)
Definition offset_find_lfun_SR (inverse : rmat -> rmat) (determinant : rmat -> R) (isnormal : R -> bool)
    (T : Type) (scope : T -> list Z) (eval : T -> rvec -> R) (deriv : T -> rvec -> rvec) (deriv2 : T -> rvec -> rmat)
    (integral : (rvec -> outcome R) -> (rvec -> outcome rvec) -> (rvec -> outcome rmat) -> nat -> mnormal -> list Z -> outcome T)
    (f : with_offset (frame Rnum)) (ntheta : nat) (family link : string) (nSL : nat) : outcome (sr T) :=
  find_lfun_SR inverse determinant isnormal T scope eval deriv deriv2 integral (of_frame f) ntheta family link nSL.

(** find_log_integrand, R/IS.R:38-60. *)
Definition offset_find_log_integrand (fam : rfamily) (pars : rvec) (f : with_offset (modfr Rnum)) (re : retrms Rnum)
    (r : nat) (u : rmat) : outcome rvec :=
  find_log_integrand fam pars (of_frame f) re r u.

(** find_epsilon_1, R/hol.R:7-35. *)
Definition offset_find_epsilon_1 (solve : rmat -> rmat -> rmat) (familyName linkName : string) (pars : rvec)
    (f : with_offset (modfr Rnum)) (re : retrms Rnum) (u_hat : rvec) (precision : rmat) : outcome R :=
  find_epsilon_1 solve familyName linkName pars (of_frame f) re u_hat precision.
