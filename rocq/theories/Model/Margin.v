(** MixedContinuousBelief::integrate, margin and computeLogNormalizingConstant,
    src/MixedContinuousBelief.cpp:59-141, in exact arithmetic.  A belief is given by
    its value, gradient and Hessian (for the parameters at hand) and its normal
    approximation, which is taken not to be fixed; items are named by their
    position. *)
From Coq Require Import List Reals Bool.
From Verif Require Import Model.Base Model.Mixed Model.Vectors Model.MultiNormal Model.Quadrature Model.IntegratedFunction.
Import ListNotations.
Local Open Scope R_scope.

Record fbelief := mkFB {
  fb_value : rvec -> R;
  fb_derivative : rvec -> rvec;
  fb_secondDerivative : rvec -> rmat;
  fb_normal : mnormal
}.
(** [store] is SparseStore: from a function, its derivatives and a normal
    approximation to the function that is evaluated instead, and its derivatives. *)
Definition storage : Type :=
  (rvec -> R) -> (rvec -> rvec) -> (rvec -> rmat) -> mnormal -> (rvec -> R) * (rvec -> rvec) * (rvec -> rmat).

Section Margin.
Context (inverse : rmat -> rmat) (determinant : rmat -> R) (isProper : mnormal -> bool)
        (store : storage) (r : rule).

(** The items that remain, and NormalBelief::margin on them,
    src/MixedContinuousBelief.cpp:93-94 and 105. *)
Definition normal_without (normal : mnormal) (relativeItem : nat) : mnormal :=
  computeMarginal inverse determinant normal (erase (seq 0 (length (no_mean normal))) relativeItem).

(** integrate, src/MixedContinuousBelief.cpp:59-107. *)
Definition integrate_belief (relativeItem : nat) (b : fbelief) : fbelief :=
  let i := make_ifun inverse determinant isProper relativeItem
             (fb_value b) (fb_derivative b) (fb_secondDerivative b) (fb_normal b) in
  let normalMargin := integrate_item inverse determinant (fb_normal b) relativeItem in
  let s := store (if_evaluate i r) (if_evaluateDerivative i r) (if_evaluateSecondDerivative i r) normalMargin in
  mkFB (fst (fst s)) (snd (fst s)) (snd s) (normal_without (fb_normal b) relativeItem).

(** margin on no items, src/MixedContinuousBelief.cpp:109-132: the items are
    integrated over in their order, so always the first of those that are left.
    computeLogNormalizingConstant, src/MixedContinuousBelief.cpp:134-141. *)
Fixpoint integrate_all (items : nat) (b : fbelief) : fbelief :=
  match items with O => b | S n => integrate_all n (integrate_belief 0 b) end.
Definition belief_logNormalizingConstant (b : fbelief) : R :=
  fb_value (integrate_all (length (no_mean (fb_normal b))) b) [].
End Margin.
