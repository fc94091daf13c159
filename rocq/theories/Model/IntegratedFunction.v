(** src/IntegratedFunction.cpp, in exact arithmetic. *)
From Coq Require Import List Reals Bool.
From Verif Require Import Model.Base Model.Vectors Model.MultiNormal Model.Quadrature.
Import ListNotations.
Local Open Scope R_scope.

(** Members, inst/include/IntegratedFunction.h:30-46. *)
Record ifun := mkIfun {
  if_over : nat;
  if_function : rvec -> R;
  if_derivative : rvec -> rvec;
  if_secondDerivative : rvec -> rmat;
  if_logValueAtMean : R;
  if_mean1 : R;
  if_mean2 : rvec;
  if_cross : rvec;
  if_sigma : R
}.

(** Constructor with initializeNormal and initializeConditionalTerms,
    src/IntegratedFunction.cpp:8-25 and 60-92.  [isProper] is
    MultiNormal::isProper; [cross_] of an uninitialised vector of length zero is
    the empty vector. *)
Section Construct.
Context (inverse : rmat -> rmat) (determinant : rmat -> R) (isProper : mnormal -> bool).
Definition initializeNormal (normal : mnormal) : mnormal :=
  if isProper normal then normal
  else setPrecision inverse determinant normal (midentity (length (no_mean normal))).
Definition make_ifun (integrateOver : nat) (f : rvec -> R) (d : rvec -> rvec) (d2 : rvec -> rmat)
           (normal : mnormal) : ifun :=
  let normal := initializeNormal normal in
  let logValueAtMean := f (no_mean normal) in
  let variance := no_variance normal in
  let '(cross, sigma) :=
    if Nat.ltb 1 (length variance * length (hd [] variance)) then
      let variance22 := getMatrixWithout integrateOver variance in
      let variance21 := getVectorWithout integrateOver (nth integrateOver variance []) in
      let variance11 := nth integrateOver (nth integrateOver variance []) 0 in
      let cross := mvmul (inverse variance22) variance21 in
      let varianceConditional := variance11 - vdot variance21 cross in
      (cross, sqrt varianceConditional)
    else ([], sqrt (nth 0 (nth 0 variance []) 0)) in
  mkIfun integrateOver f d d2 logValueAtMean
         (nth integrateOver (no_mean normal) 0)
         (getVectorWithout integrateOver (no_mean normal)) cross sigma.
End Construct.

Section Evaluate.
Context (i : ifun).

(** findConditionalMean, src/IntegratedFunction.cpp:94-101. *)
Definition findConditionalMean (x : rvec) : R :=
  if Nat.ltb 0 (length x) then if_mean1 i - vdot (if_cross i) (vsub x (if_mean2 i)) else if_mean1 i.

(** extendArgument, src/IntegratedFunction.cpp:103-108, with component
    integrateOver_ set to t. *)
Definition extendArgument (x : rvec) (t : R) : rvec := insert (if_over i) x t.

(** integrateNoLog, src/IntegratedFunction.cpp:110-120. *)
Definition integrateNoLog (x : rvec) (conditionalMean : R) (r : rule) : R :=
  integrate1D (fun t => exp (if_function i (extendArgument x t) - if_logValueAtMean i))
              conditionalMean (if_sigma i) r.

(** integrateDerivativeNoLog, src/IntegratedFunction.cpp:122-144. *)
Definition integrateDerivativeNoLog (x : rvec) (conditionalMean : R) (r : rule) : rvec :=
  integrate1DVector (fun t =>
      let xExt := extendArgument x t in
      let value := exp (if_function i xExt - if_logValueAtMean i) in
      let derivative := vscale value (if_derivative i xExt) in
      let derivativeRem := getVectorWithout (if_over i) derivative in
      let correction := vscale (nth (if_over i) derivative 0) (vneg (if_cross i)) in
      vadd derivativeRem correction)
    (length x) conditionalMean (if_sigma i) r.

(** integrateSecondDerivativeNoLog, src/IntegratedFunction.cpp:144-176. *)
Definition integrateSecondDerivativeNoLog (x : rvec) (conditionalMean : R) (r : rule) : rmat :=
  integrate1DMatrix (fun t =>
      let xExt := extendArgument x t in
      let value := exp (if_function i xExt - if_logValueAtMean i) in
      let derivativeLog := if_derivative i xExt in
      let secondDerivative :=
        mscale value (madd (if_secondDerivative i xExt) (outer derivativeLog derivativeLog)) in
      let secondDerivative22 := getMatrixWithout (if_over i) secondDerivative in
      let secondDerivative12 := getVectorWithout (if_over i) (nth (if_over i) secondDerivative []) in
      let secondDerivative11 := nth (if_over i) (nth (if_over i) secondDerivative []) 0 in
      let ret := secondDerivative22 in
      let ret := msub ret (outer (if_cross i) secondDerivative12) in
      let ret := msub ret (outer secondDerivative12 (if_cross i)) in
      madd ret (mscale secondDerivative11 (outer (if_cross i) (if_cross i))))
    (length x) conditionalMean (if_sigma i) r.

(** evaluate, evaluateDerivative, evaluateSecondDerivative,
    src/IntegratedFunction.cpp:27-58. *)
Definition if_evaluate (r : rule) (x : rvec) : R :=
  let conditionalMean := findConditionalMean x in
  let integral := integrateNoLog x conditionalMean r in
  ln integral + if_logValueAtMean i.
Definition if_evaluateDerivative (r : rule) (x : rvec) : rvec :=
  let conditionalMean := findConditionalMean x in
  let integral := integrateNoLog x conditionalMean r in
  let integralDerivative := integrateDerivativeNoLog x conditionalMean r in
  vscale (/ integral) integralDerivative.
Definition if_evaluateSecondDerivative (r : rule) (x : rvec) : rmat :=
  let conditionalMean := findConditionalMean x in
  let integral := integrateNoLog x conditionalMean r in
  let integralDerivative := integrateDerivativeNoLog x conditionalMean r in
  let integralSecondDerivative := integrateSecondDerivativeNoLog x conditionalMean r in
  let numerator := msub (mscale integral integralSecondDerivative)
                        (outer integralDerivative integralDerivative) in
  mscale (/ integral ^ 2) numerator.
End Evaluate.
