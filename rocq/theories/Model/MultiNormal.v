(** src/MultiNormal.cpp, in exact arithmetic. *)
From Coq Require Import List Reals Bool.
From Verif Require Import Model.Base Model.Vectors.
Import ListNotations.
Local Open Scope R_scope.

(** Members, inst/include/MultiNormal.h:45-48. *)
Record mnormal := mkNormal {
  no_mean : rvec;
  no_precision : rmat;
  no_variance : rmat;
  no_normalizer : R
}.

(** Eigen's inverse(), determinant() and colPivHouseholderQr().solve. *)
Section MultiNormal.
Context (inverse : rmat -> rmat) (determinant : rmat -> R) (solve : rmat -> rvec -> rvec).

(** initializeNormalizer, src/MultiNormal.cpp:149-153. *)
Definition logSqrtTwoPi : R := 91893853320467266954 / 100000000000000000000.
Definition initializeNormalizer (mean : rvec) (precision : rmat) : R :=
  - INR (length mean) * logSqrtTwoPi + 1 / 2 * ln (determinant precision).

(** setMean, setPrecision, setVariance, src/MultiNormal.cpp:44-69. *)
Definition setMean (n : mnormal) (mean : rvec) : mnormal :=
  mkNormal mean (no_precision n) (no_variance n) (no_normalizer n).
Definition setPrecision (n : mnormal) (precision : rmat) : mnormal :=
  let variance := if Nat.ltb 0 (length precision) then inverse precision else precision in
  mkNormal (no_mean n) precision variance (initializeNormalizer (no_mean n) precision).
Definition setVariance (n : mnormal) (variance : rmat) : mnormal :=
  let precision := if Nat.ltb 0 (length variance) then inverse variance else variance in
  mkNormal (no_mean n) precision variance (initializeNormalizer (no_mean n) precision).

(** Constructors, src/MultiNormal.cpp:12-23 (a new vector or matrix holds
    arbitrary numbers; zeros stand for them, and they are never read). *)
Definition normal_dim (d : nat) : mnormal := mkNormal (repeat 0 d) (mzero d) (mzero d) 0.
Definition normal_given (mean : rvec) (precision : rmat) : mnormal :=
  setPrecision (mkNormal mean precision precision 0) precision.

(** initializeFromDerivatives, src/MultiNormal.cpp:25-41. *)
Definition normal_from_derivatives (location derivative : rvec) (secondDerivative : rmat) : mnormal :=
  let n := setPrecision (normal_dim (length location)) (mscale (-1) secondDerivative) in
  setMean n (vadd location (solve (no_precision n) derivative)).

(** multiplySubsetInternal, src/MultiNormal.cpp:155-179. *)
Definition multiplySubsetInternal (n normal : mnormal) (subset : list nat) (divide : bool) : mnormal :=
  let precisionSubset := msubset (no_precision n) subset in
  let normalPrecision := if divide then mscale (-1) (no_precision normal) else no_precision normal in
  let newPrecisionSubset := madd precisionSubset normalPrecision in
  let meanSubset := vsubset (no_mean n) subset in
  let meanSubset' :=
    if Nat.ltb 0 (length newPrecisionSubset)
    then mvmul (inverse newPrecisionSubset)
               (vadd (mvmul precisionSubset meanSubset) (mvmul normalPrecision (no_mean normal)))
    else meanSubset in
  let precision := setMatrixSubset (no_precision n) newPrecisionSubset subset in
  let mean := setVectorSubset (no_mean n) meanSubset' subset in
  let variance := if Nat.ltb 0 (length precision) then inverse precision else no_variance n in
  mkNormal mean precision variance (initializeNormalizer mean precision).
Definition multiplySubset n normal subset := multiplySubsetInternal n normal subset false.
Definition divideSubset n normal subset := multiplySubsetInternal n normal subset true.

(** computeMarginal and integrate, src/MultiNormal.cpp:127-147. *)
Definition computeMarginal (n : mnormal) (items : list nat) : mnormal :=
  let varianceMarginal := msubset (no_variance n) items in
  let meanMarginal := vsubset (no_mean n) items in
  let marginal := normal_dim (length items) in
  let marginal := if Nat.ltb 0 (length items) then setMean marginal meanMarginal else marginal in
  setVariance marginal varianceMarginal.
Definition integrate_item (n : mnormal) (item : nat) : mnormal :=
  let varianceMarginal := getMatrixWithout item (no_variance n) in
  let meanMarginal := getVectorWithout item (no_mean n) in
  let marginal := normal_dim (length meanMarginal) in
  let marginal := if Nat.ltb 0 (length meanMarginal) then setMean marginal meanMarginal else marginal in
  setVariance marginal varianceMarginal.

End MultiNormal.

(** evaluate and its derivatives, src/MultiNormal.cpp:88-106. *)
Definition normal_evaluate (n : mnormal) (x : rvec) : R :=
  let xDiff := vsub x (no_mean n) in
  no_normalizer n + - (1 / 2) * vdot xDiff (mvmul (no_precision n) xDiff).
Definition normal_evaluateDerivative (n : mnormal) (x : rvec) : rvec :=
  let xDiff := vsub x (no_mean n) in
  vmmul (vneg xDiff) (no_precision n).
Definition normal_evaluateSecondDerivative (n : mnormal) (x : rvec) : rmat :=
  map vneg (no_precision n).
