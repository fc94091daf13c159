(** The loglikelihood by sequential reduction: find_lfun_SR, R/loglikelihood.R:38-78,
    from a model frame to a number, in exact arithmetic. *)
From Coq Require Import String List ZArith Reals Bool.
From Verif Require Import Model.Base Model.Family Model.GLMM Model.SplitFrame Model.Vectors Model.Mixed Model.MultiNormal
  Model.NormalSig Model.ClusterGraph Spec.Numbers.
Import ListNotations.
Local Open Scope R_scope.

(** check_modfr_SR, R/utility.R:85-94.  stop() is RuntimeError. *)
Definition check_modfr_SR (family link : string) : outcome unit :=
  if negb (String.eqb family "binomial") then Throw RuntimeError
  else if negb (String.eqb link "logit" || String.eqb link "probit") then Throw RuntimeError
  else Ok tt.

(** The continuous beliefs (inst/include/ContinuousBelief.h): GLMMBelief, NormalBelief
    and what integrate() stores, about which nothing is assumed here. *)
Inductive sr_belief (T : Type) :=
| Glmm (d : glmm_data Rnum)
| Norm (items : list Z) (n : mnormal)
| Stored (t : T).
Arguments Glmm {T} _.
Arguments Norm {T} _ _.
Arguments Stored {T} _.

(** What is returned, if something is. *)
Definition ok_or {A} (default : A) (o : outcome A) : A := match o with Ok a => a | _ => default end.

Section SR.
(** Eigen's inverse() and determinant(); std::isnormal; the stored beliefs, and
    IntegratedFunction with SparseBelief (Model/IntegratedFunction.v and
    Model/SparseStore.v are about these). *)
Context (inverse : rmat -> rmat) (determinant : rmat -> R) (isnormal : R -> bool).
Context (T : Type) (t_scope : T -> list Z) (t_eval : T -> rvec -> R) (t_deriv : T -> rvec -> rvec) (t_deriv2 : T -> rvec -> rmat).
Context (t_integral : (rvec -> outcome R) -> (rvec -> outcome rvec) -> (rvec -> outcome rmat) ->
                      nat -> mnormal -> list Z -> outcome T).

(** getItems, src/BeliefBase.cpp. *)
Definition sr_scope (b : sr_belief T) : list Z :=
  match b with Glmm d => gd_items _ d | Norm items _ => items | Stored t => t_scope t end.

(** evaluate and its derivatives, with the parameters [p].  The value does not depend
    on what a GLMMBelief has been called with before (C12, C35), so it is that of a
    new object; a call that is undefined is given a default value here, and [ready]
    below excludes it.  NormalBelief: src/NormalBelief.cpp:99-112, with
    logNormalizingConstant_ = 0. *)
Definition sr_eval (p : GLMM.params Rnum) (b : sr_belief T) (x : rvec) : R :=
  match b with
  | Glmm d => ok_or 0 (c <- glmm_new Rnum d ;; r <- glmm_evaluate Rnum d c x p ;; Ok (fst r))
  | Norm _ n => 0 + normal_evaluate n x
  | Stored t => t_eval t x
  end.
Definition sr_deriv (p : GLMM.params Rnum) (b : sr_belief T) (x : rvec) : rvec :=
  match b with
  | Glmm d => ok_or [] (c <- glmm_new Rnum d ;; r <- glmm_evaluateDerivative Rnum d c x p ;; Ok (fst r))
  | Norm _ n => normal_evaluateDerivative n x
  | Stored t => t_deriv t x
  end.
Definition sr_deriv2 (p : GLMM.params Rnum) (b : sr_belief T) (x : rvec) : rmat :=
  match b with
  | Glmm d => ok_or [] (c <- glmm_new Rnum d ;; r <- glmm_evaluateSecondDerivative Rnum d c x p ;; Ok (fst r))
  | Norm _ n => normal_evaluateSecondDerivative n x
  | Stored t => t_deriv2 t x
  end.
Definition sr_sig (p : GLMM.params Rnum) : sig :=
  normal_sig inverse determinant isnormal (sr_belief T) sr_scope (sr_eval p) (sr_deriv p) (sr_deriv2 p)
    (fun f d d2 k n items => t <- t_integral f d d2 k n items ;; Ok (Stored t)).

(** appendGLMMBelief and appendNormalBelief, src/MixedContinuousBeliefVector.cpp:9-32: the
    constructor of a GLMMBelief does its first computation, src/GLMMBelief.cpp:10-23. *)
Definition make_belief (t : term Rnum) : outcome (sr_belief T) :=
  match t with
  | GLMMTerm d => _ <- glmm_new Rnum d ;; Ok (Glmm d)
  | NormalTerm items mean precision => Ok (Norm items (normal_given inverse determinant mean precision))
  end.

(** ClusterGraph(beliefs), src/ClusterGraph.cpp:23-29.  The construction does not
    evaluate the beliefs, so which parameters the signature holds is immaterial; the
    graph is built for the parameters it is used with, instead of once. *)
Definition sr_graph (p : GLMM.params Rnum) (bs : list (sr_belief T)) : outcome (cgraph (sr_sig p)) :=
  makeClusterGraph (map (@mixed_of_belief (sr_sig p)) bs).

(** What the function that is returned has captured. *)
Record sr := mkSR {
  sr_beliefs : list (sr_belief T);
  sr_family : family;
  sr_n_fixed : nat;
  sr_n_random : nat
}.

(** find_lfun_SR without the inner function, lines 39-58; [n_random] is the length of
    theta.  The assignments of nAGQ and nSL (lines 46-47) are in Model/Params.v. *)
Definition find_lfun_SR (fr : frame Rnum) (n_random : nat) (family link : string) (nSL : nat) : outcome sr :=
  _ <- check_modfr_SR family link ;;
  ts <- find_factorization_terms Rnum fr ;;
  bs <- mapM make_belief ts ;;
  fam <- make_family family link ;;
  beliefs <- sr_graph (GLMM.mkParams Rnum [] [] fam) bs ;;
  if Z.ltb 500000 (width beliefs ^ Z.of_nat (2 * nSL)) then Throw RuntimeError
  else Ok (mkSR bs fam (fr_numFixed _ fr) n_random).

(** Every evaluation at these parameters starts with setTheta and setBeta,
    src/GLMMBelief.cpp:28-29, which may be undefined. *)
Definition ready (p : GLMM.params Rnum) (b : sr_belief T) : outcome unit :=
  match b with
  | Glmm d => c <- glmm_new Rnum d ;; _ <- prepare Rnum d c p ;; Ok tt
  | _ => Ok tt
  end.

(** pars[1:n] and pars[-(1:n)], lines 66-67: 1:0 is c(1, 0), which selects the first. *)
Definition leading (n : nat) (pars : list R) : list R := firstn (Nat.max 1 n) pars.
Definition trailing (n : nat) (pars : list R) : list R := skipn (Nat.max 1 n) pars.
Definition pars_of (s : sr) (pars : list R) : GLMM.params Rnum :=
  GLMM.mkParams Rnum (leading (sr_n_random s) pars) (trailing (sr_n_random s) pars) (sr_family s).

(** lfun, lines 60-76; [laplace] is compute_normal_approx (lines 80-90), which asks
    lme4: l_laplace, mean and precision at the given parameters. *)
Definition lfun_SR (laplace : list R -> R * rvec * (Z -> Z -> R)) (s : sr) (pars : list R) : outcome R :=
  if negb (Nat.eqb (length pars) (sr_n_fixed s + sr_n_random s)) then Throw RuntimeError
  else
    let p := pars_of s pars in
    let '(l_laplace, mean, precision) := laplace pars in
    cg <- sr_graph p (sr_beliefs s) ;;
    _ <- mapM (ready p) (sr_beliefs s) ;;
    l_SR <- @computeLogNormalizingConstant (sr_sig p) cg mean precision ;;
    if Rltb (l_laplace / 2) l_SR then Throw RuntimeError else Ok l_SR.

End SR.
