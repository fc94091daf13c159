(** What the loglikelihood of a model frame should be. *)
From Coq Require Import String List ZArith Reals.
From Verif Require Import Model.Base Model.Family Model.GLMM Model.SplitFrame Spec.Numbers Spec.FamilySpec Spec.GLMMSpec Spec.SplitSpec Spec.ISSpec.
Import ListNotations.
Local Open Scope R_scope.

Definition link_name (l : link) : string := match l with Logit => "logit" | Probit => "probit" end.

(** The random effects are numbered 0, ..., q - 1. *)
Definition effects (fr : frame Rnum) : list Z := map Z.of_nat (seq 0 (cs_rows (fr_Zt _ fr))).

(** The logarithm of the joint density of the observations and the random effects: the
    loglikelihood of all the observations given the random effects w, and the standard
    normal density of w. *)
Definition joint_density (P : R -> R) (fr : frame Rnum) (beta theta : list R) (w : Z -> R) : R :=
  factor_loglik P (whole fr) beta theta (map w (effects fr)) + ln (std_normal (map w (effects fr))).
