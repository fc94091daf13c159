(** Sequential reduction with its parts put together: the cluster graph
    (Model/ClusterGraph.v) with the normals of Model/MultiNormal.v, the factors of
    Model/LfunSR.v, the integrals of Model/IntegratedFunction.v and the storage of
    Model/SparseStore.v; in exact arithmetic. *)
From Coq Require Import String List ZArith Reals Bool.
From Verif Require Import Model.Base Model.Family Model.GLMM Model.SplitFrame Model.SparseGrid Model.Vectors Model.Mixed Model.MultiNormal
  Model.NormalSig Model.ClusterGraph Model.Quadrature Model.IntegratedFunction Model.SparseStore Model.LfunSR Spec.Numbers.
Import ListNotations.
Local Open Scope R_scope.

(** MultiNormal::isProper, src/MultiNormal.cpp:83-86.  A real number is finite. *)
Definition normal_isProper (n : mnormal) : bool := if Req_EM_T (no_normalizer n) 0 then false else true.

(** What the conversion of a number that is not an unsigned int gives is not defined
    (src/BasisLevel.cpp:208): what evaluate, evaluateDerivative and evaluateSecondDerivative
    of a stored function return in that case, arbitrary functions of the store and the point. *)
Record elsewhere := mkElsewhere {
  el_value : store -> rvec -> R;
  el_derivative : store -> rvec -> rvec;
  el_secondDerivative : store -> rvec -> rmat
}.

Section Sequential.
(** Eigen's inverse(), determinant(), colPivHouseholderQr().solve(), operatorSqrt()
    and operatorInverseSqrt(); std::isnormal; parameters.quadratureRule and
    parameters.sparseBasis. *)
Context (inverse : rmat -> rmat) (determinant : rmat -> R) (isnormal : R -> bool) (solve : rmat -> rvec -> rvec)
  (operatorSqrt operatorInverseSqrt : rmat -> rmat) (r : rule) (b : basis) (u : elsewhere).

(** SparseBelief: the items and the SparseStore, inst/include/SparseBelief.h, and its
    evaluate, evaluateDerivative and evaluateSecondDerivative, src/SparseBelief.cpp.  A
    call that is undefined returns what [u] says. *)
Definition sparse_belief : Type := list Z * store.
Definition stored_items (t : sparse_belief) : list Z := fst t.
Definition stored_eval (t : sparse_belief) (x : rvec) : R := ok_or (el_value u (snd t) x) (store_evaluate (snd t) x b).
Definition stored_deriv (t : sparse_belief) (x : rvec) : rvec := ok_or (el_derivative u (snd t) x) (store_evaluateDerivative (snd t) x b).
Definition stored_deriv2 (t : sparse_belief) (x : rvec) : rmat := ok_or (el_secondDerivative u (snd t) x) (store_evaluateSecondDerivative (snd t) x b).

(** The part of MixedContinuousBelief::integrate that makes the new belief,
    src/MixedContinuousBelief.cpp:62-102.  The function to be integrated and its
    derivatives are given a default value where they are undefined. *)
Definition integrate_and_store (f : rvec -> outcome R) (d : rvec -> outcome rvec) (d2 : rvec -> outcome rmat)
    (relativeItem : nat) (normalApprox : mnormal) (remainingItems : list Z) : outcome sparse_belief :=
  let i := make_ifun inverse determinant normal_isProper relativeItem
             (fun x => ok_or 0 (f x)) (fun x => ok_or [] (d x)) (fun x => ok_or [] (d2 x)) normalApprox in
  let normalMargin := integrate_item inverse determinant normalApprox relativeItem in
  s <- store_from_normal solve operatorSqrt operatorInverseSqrt
         (if_evaluate i r) (if_evaluateDerivative i r) (if_evaluateSecondDerivative i r) normalMargin b ;;
  Ok (remainingItems, s).

(** find_lfun_SR and the function it returns, R/loglikelihood.R:38-78. *)
Definition sequential_sig (p : GLMM.params Rnum) : sig :=
  sr_sig inverse determinant isnormal sparse_belief stored_items stored_eval stored_deriv stored_deriv2 integrate_and_store p.
Definition sequential_setup := find_lfun_SR inverse determinant isnormal sparse_belief stored_items stored_eval stored_deriv stored_deriv2 integrate_and_store.
Definition sequential_lfun := lfun_SR inverse determinant isnormal sparse_belief stored_items stored_eval stored_deriv stored_deriv2 integrate_and_store.
End Sequential.
