(** src/Quadratic.cpp, src/SparseGridTransform.cpp and src/SparseStore.cpp, in exact
    arithmetic.  The function to be stored is total. *)
From Coq Require Import List Reals Bool.
From Verif Require Import Model.Base Model.SparseGrid Model.Vectors Model.MultiNormal Model.Margin.
Import ListNotations.
Local Open Scope R_scope.

(** Transposition and products of matrices. *)
Definition mtranspose (m : rmat) : rmat :=
  map (fun j => map (fun row => nth j row 0) m) (seq 0 (length (hd [] m))).
Definition mmul (a b : rmat) : rmat := map (fun row => vmmul row b) a.

(** Members, inst/include/Quadratic.h:15-16. *)
Record quadratic := mkQuadratic { qu_b : rvec; qu_A : rmat }.
(** src/Quadratic.cpp:3-5 (arbitrary numbers to begin with; zeros stand for them, and
    they are never read). *)
Definition quadratic_new (d : nat) : quadratic := mkQuadratic (repeat 0 d) (mzero d).
(** operator(), derivative, secondDerivative, src/Quadratic.cpp:7-20. *)
Definition quadratic_value (q : quadratic) (x : rvec) : R :=
  let diff := vsub x (qu_b q) in vdot diff (mvmul (qu_A q) diff).
Definition quadratic_derivative (q : quadratic) (x : rvec) : rvec :=
  vmmul (vsub x (qu_b q)) (madd (qu_A q) (mtranspose (qu_A q))).
Definition quadratic_secondDerivative (q : quadratic) (x : rvec) : rmat :=
  madd (qu_A q) (mtranspose (qu_A q)).

(** The Frobenius norm, Eigen's norm(). *)
Definition mnorm (m : rmat) : R := sqrt (fold_right Rplus 0 (map (fun row => vdot row row) m)).

(** Members, inst/include/SparseGridTransform.h:20-23. *)
Record transform := mkTransform {
  st_grid : sgrid; st_shift : rvec; st_scale : rmat; st_inverseScale : rmat
}.

(** SparseGridTransform::interpolate and derivatives, src/SparseGridTransform.cpp:14-31. *)
Definition to_grid (s : transform) (x : rvec) : rvec := mvmul (st_inverseScale s) (vsub x (st_shift s)).
Definition transform_interpolate (s : transform) (x : rvec) (b : basis) : outcome R :=
  let z := to_grid s x in
  v <- interpolate (st_grid s) z b ;; Ok (v - 1 / 2 * vdot z z).
Definition transform_interpolateDerivative (s : transform) (x : rvec) (b : basis) : outcome rvec :=
  let z := to_grid s x in
  v <- interpolateDerivative (st_grid s) z b ;; Ok (mvmul (mtranspose (st_inverseScale s)) (vsub v z)).
Definition transform_interpolateSecondDerivative (s : transform) (x : rvec) (b : basis) : outcome rmat :=
  let z := to_grid s x in
  v <- interpolateSecondDerivative (st_grid s) z b ;;
  let unscaledReturn := msub v (midentity (length z)) in
  Ok (mmul (mmul (mtranspose (st_inverseScale s)) unscaledReturn) (st_inverseScale s)).

(** Members, inst/include/SparseStore.h:25-26. *)
Record store := mkStore { ss_modifier : quadratic; ss_stored : transform }.

(** evaluate and derivatives, src/SparseStore.cpp:32-51. *)
Definition store_evaluate (s : store) (x : rvec) (b : basis) : outcome R :=
  v <- transform_interpolate (ss_stored s) x b ;; Ok (v - quadratic_value (ss_modifier s) x).
Definition store_evaluateDerivative (s : store) (x : rvec) (b : basis) : outcome rvec :=
  v <- transform_interpolateDerivative (ss_stored s) x b ;; Ok (vsub v (quadratic_derivative (ss_modifier s) x)).
Definition store_evaluateSecondDerivative (s : store) (x : rvec) (b : basis) : outcome rmat :=
  v <- transform_interpolateSecondDerivative (ss_stored s) x b ;;
  Ok (msub v (quadratic_secondDerivative (ss_modifier s) x)).

Section Construct.
(** colPivHouseholderQr().solve(), and operatorSqrt() and operatorInverseSqrt() of
    SelfAdjointEigenSolver. *)
Context (solve : rmat -> rvec -> rvec) (operatorSqrt operatorInverseSqrt : rmat -> rmat).

(** Quadratic::initializeFromDerivatives, src/Quadratic.cpp:23-35. *)
Definition quadratic_initialize (q : quadratic) (location derivativeAtLocation : rvec)
    (secondDerivativeAtLocation : rmat) : quadratic :=
  if Nat.ltb 0 (length location) then
    let A := mscale (- (1 / 2)) secondDerivativeAtLocation in
    if Rlt_dec 0 (mnorm A)
    then mkQuadratic (vadd location (vscale (1 / 2) (solve A derivativeAtLocation))) A
    else mkQuadratic location A
  else q.

(** initializeFromNormal, initializeTransformedFunction,
    src/SparseGridTransform.cpp:34-55, on a new SparseGridTransform of the
    dimension of the normal (src/SparseGridTransform.cpp:3-5). *)
Definition transform_from_normal (f : rvec -> R) (normal : mnormal) (b : basis) : outcome transform :=
  let d := length (no_mean normal) in
  let scale := if Nat.ltb 0 d then operatorInverseSqrt (no_precision normal) else mzero d in
  let inverseScale := if Nat.ltb 0 d then operatorSqrt (no_precision normal) else mzero d in
  let shift := if Nat.ltb 0 d then no_mean normal else repeat 0 d in
  let fTransform z := f (vadd shift (mvmul scale z)) + 1 / 2 * vdot z z in
  g <- grid_of fTransform d b ;;
  Ok (mkTransform g shift scale inverseScale).

(** The modifier of initializeFromNormal, src/SparseStore.cpp:59-69. *)
Definition find_modifier (fDerivative : rvec -> rvec) (fSecondDerivative : rvec -> rmat) (normal : mnormal)
  : quadratic :=
  let location := no_mean normal in
  let derivativeModifier := vsub (fDerivative location) (normal_evaluateDerivative normal location) in
  let secondDerivativeModifier := msub (fSecondDerivative location) (normal_evaluateSecondDerivative normal location) in
  quadratic_initialize (quadratic_new (length location)) location derivativeModifier secondDerivativeModifier.

(** SparseStore(Function, VectorFunction, MatrixFunction, const MultiNormal&, const
    Basis&) and initializeFromNormal, src/SparseStore.cpp:18-29 and 53-75. *)
Definition store_from_normal (f : rvec -> R) (fDerivative : rvec -> rvec) (fSecondDerivative : rvec -> rmat)
    (normal : mnormal) (b : basis) : outcome store :=
  let modifier := find_modifier fDerivative fSecondDerivative normal in
  let fModified x := f x + quadratic_value modifier x in
  stored <- transform_from_normal fModified normal b ;;
  Ok (mkStore modifier stored).
End Construct.

(** The stored function and its derivatives as MixedContinuousBelief uses them,
    src/MixedContinuousBelief.cpp:95-104: zeros stand for undefined results, so what
    is said through this function says nothing about when they occur. *)
Definition sparse_storage (solve : rmat -> rvec -> rvec) (operatorSqrt operatorInverseSqrt : rmat -> rmat) (b : basis) : storage :=
  fun f g H normal =>
  let s := store_from_normal solve operatorSqrt operatorInverseSqrt f g H normal b in
  ((fun x => match bind s (fun s => store_evaluate s x b) with Ok v => v | _ => 0 end,
    fun x => match bind s (fun s => store_evaluateDerivative s x b) with Ok v => v | _ => [] end),
    fun x => match bind s (fun s => store_evaluateSecondDerivative s x b) with Ok v => v | _ => [] end).
