(** The conditional distribution of the response given the linear predictor:
    src/Binomial.cpp, src/FamilyGivenMean.cpp, src/LogitLink.cpp,
    src/ProbitLink.cpp, src/Link.cpp, src/Family.cpp.

    The code is written over a record of numbers so that the same text is read
    over the real numbers and over IEEE doubles. *)
From Coq Require Import List ZArith Bool String.
From Verif Require Import Model.Base.
Import ListNotations.
Local Open Scope Z_scope.

(** What the code asks of [double].  [nexp], [nlog], [npow] are std::exp,
    std::log and std::pow with an integral exponent; [ncdf], [npdf] are
    boost::math::cdf and pdf of the standard normal; [neps] is the literal 1e-8
    of src/Binomial.cpp line 9. *)
Record num : Type := mkNum {
  N :> Type;
  nZ : Z -> N;
  neps : N;
  nadd : N -> N -> N;
  nsub : N -> N -> N;
  nmul : N -> N -> N;
  ndiv : N -> N -> N;
  nopp : N -> N;
  nltb : N -> N -> bool;
  neqb : N -> N -> bool;
  nexp : N -> N;
  nlog : N -> N;
  npow : N -> Z -> N;
  ncdf : N -> N;
  npdf : N -> N
}.

Section Family.
Context (F : num).
Declare Scope num_scope.
Local Infix "+" := (nadd F) : num_scope.
Local Infix "-" := (nsub F) : num_scope.
Local Infix "*" := (nmul F) : num_scope.
Local Infix "/" := (ndiv F) : num_scope.
Local Notation "- x" := (nopp F x) : num_scope.
Local Notation "# z" := (nZ F z%Z) (at level 0, z at level 0) : num_scope.
Local Open Scope num_scope.

(** Coefficient-wise operations of two and three Eigen arrays.  The sizes are
    only asserted by Eigen; with NDEBUG (R's default) a mismatch reads out of
    bounds. *)
Fixpoint zip2 {A B C} (f : A -> B -> C) (a : list A) (b : list B) : outcome (list C) :=
  match a, b with
  | [], [] => Ok []
  | x :: a', y :: b' => r <- zip2 f a' b' ;; Ok (f x y :: r)
  | _, _ => UB
  end.

Definition zip3 {A B C D} (f : A -> B -> C -> D) (a : list A) (b : list B) (c : list C)
  : outcome (list D) :=
  ab <- zip2 pair a b ;; zip2 (fun p z => f (fst p) (snd p) z) ab c.

(** [.sum()]: Eigen may add in another order; the fold from the left stands for it. *)
Definition asum (a : list F) : F := fold_left (nadd F) a #0.

(** src/LogitLink.cpp lines 7-42, per coefficient. *)
Definition logit_mean (e : F) : F := nexp F e / (#1 + nexp F e).
Definition logit_mean1 (e : F) : F := nexp F e / npow F (#1 + nexp F e) 2.
Definition logit_mean2 (e : F) : F :=
  nexp F e * (#1 - nexp F e) / npow F (#1 + nexp F e) 3.
Definition logit_mean3 (e : F) : F :=
  let numerator := nexp F e * (#(-4) * nexp F e + nexp F (#2 * e) + #1) in
  let denominator := npow F (#1 + nexp F e) 4 in
  numerator / denominator.
Definition logit_mean4 (e : F) : F :=
  let numerator := - nexp F e *
    (#11 * nexp F e - #11 * nexp F (#2 * e) + nexp F (#3 * e) - #1) in
  let denominator := npow F (#1 + nexp F e) 5 in
  numerator / denominator.

(** src/ProbitLink.cpp lines 7-46, per coefficient. *)
Definition probit_mean (e : F) : F := ncdf F e.
Definition probit_mean1 (e : F) : F := npdf F e.
Definition probit_mean2 (e : F) : F := - e * npdf F e.
Definition probit_mean3 (e : F) : F := (npow F e 2 - #1) * npdf F e.
Definition probit_mean4 (e : F) : F := (- npow F e 3 + #3 * e) * npdf F e.

(** src/Link.cpp lines 15-48: the pointer set by [initialize] and the calls
    through it. *)
Inductive link := Logit | Probit.
Definition link_initialize (type : string) : outcome link :=
  if String.eqb type "logit" then Ok Logit
  else if String.eqb type "probit" then Ok Probit
  else Throw DomainError.
Definition computeMean (l : link) (lp : list F) : list F :=
  map (match l with Logit => logit_mean | Probit => probit_mean end) lp.
Definition computeMeanDerivative (l : link) (lp : list F) : list F :=
  map (match l with Logit => logit_mean1 | Probit => probit_mean1 end) lp.
Definition computeMeanSecondDerivative (l : link) (lp : list F) : list F :=
  map (match l with Logit => logit_mean2 | Probit => probit_mean2 end) lp.
Definition computeMeanThirdDerivative (l : link) (lp : list F) : list F :=
  map (match l with Logit => logit_mean3 | Probit => probit_mean3 end) lp.
Definition computeMeanFourthDerivative (l : link) (lp : list F) : list F :=
  map (match l with Logit => logit_mean4 | Probit => probit_mean4 end) lp.

(** src/Binomial.cpp lines 7-16: the loop body. *)
Definition check1 (m : F) : F :=
  let m := if nltb F m (neps F) then neps F else m in
  if nltb F (#1 - neps F) m then #1 - neps F else m.
Definition checkMean (mean : list F) : list F := map check1 mean.

(** src/Binomial.cpp lines 18-24. *)
Definition binomial1 (m y w : F) : F :=
  w * (y * nlog F m + (#1 - y) * nlog F (#1 - m)).
Definition binomial_evaluate (mean response weights : list F) : outcome F :=
  t <- zip3 binomial1 mean response weights ;; Ok (asum t).

(** src/Binomial.cpp lines 26-31, 33-38, 40-45, 47-52. *)
Definition binomial_d1 (m y w : F) : F := w * (y / m - (#1 - y) / (#1 - m)).
Definition binomial_d2 (m y w : F) : F :=
  - w * (y * npow F m (-2) + (#1 - y) * npow F (#1 - m) (-2)).
Definition binomial_d3 (m y w : F) : F :=
  #2 * w * (y * npow F m (-3) - (#1 - y) * npow F (#1 - m) (-3)).
Definition binomial_d4 (m y w : F) : F :=
  #(-6) * w * (y * npow F m (-4) + (#1 - y) * npow F (#1 - m) (-4)).

(** src/FamilyGivenMean.cpp lines 17-23: the only family. *)
Inductive familyGivenMean := Binomial.
Definition familyGivenMean_initialize (type : string) : outcome familyGivenMean :=
  if String.eqb type "binomial" then Ok Binomial else Throw DomainError.

(** src/Family.cpp lines 13-17; the member [link_] is initialised first
    (inst/include/Family.h lines 34-35 declare it first). *)
Record family := mkFamily { fam_link : link; fam_given : familyGivenMean }.
Definition make_family (familyName linkName : string) : outcome family :=
  l <- link_initialize linkName ;;
  g <- familyGivenMean_initialize familyName ;;
  Ok (mkFamily l g).

(** src/Family.cpp lines 50-57. *)
Definition evaluate (fam : family) (lp response weights : list F) : outcome F :=
  let mean := computeMean (fam_link fam) lp in
  let mean := checkMean mean in
  binomial_evaluate mean response weights.

(** src/Family.cpp lines 60-68. *)
Definition evaluateDerivative (fam : family) (lp response weights : list F) : outcome (list F) :=
  let mean := computeMean (fam_link fam) lp in
  let mean := checkMean mean in
  let meanDerivative := computeMeanDerivative (fam_link fam) lp in
  familyD1 <- zip3 binomial_d1 mean response weights ;;
  zip2 (nmul F) meanDerivative familyD1.

(** src/Family.cpp lines 71-83. *)
Definition evaluateSecondDerivative (fam : family) (lp response weights : list F) : outcome (list F) :=
  let mean := computeMean (fam_link fam) lp in
  let mean := checkMean mean in
  let meanDerivative := computeMeanDerivative (fam_link fam) lp in
  let meanSecondDerivative := computeMeanSecondDerivative (fam_link fam) lp in
  familyDerivative <- zip3 binomial_d1 mean response weights ;;
  familySecondDerivative <- zip3 binomial_d2 mean response weights ;;
  a <- zip2 (fun m1 f2 => npow F m1 2 * f2) meanDerivative familySecondDerivative ;;
  b <- zip2 (nmul F) meanSecondDerivative familyDerivative ;;
  zip2 (nadd F) a b.

(** src/Family.cpp lines 85-101. *)
Definition evaluateThirdDerivative (fam : family) (lp response weights : list F) : outcome (list F) :=
  let mean := computeMean (fam_link fam) lp in
  let mean := checkMean mean in
  let meanD1 := computeMeanDerivative (fam_link fam) lp in
  let meanD2 := computeMeanSecondDerivative (fam_link fam) lp in
  let meanD3 := computeMeanThirdDerivative (fam_link fam) lp in
  familyD1 <- zip3 binomial_d1 mean response weights ;;
  familyD2 <- zip3 binomial_d2 mean response weights ;;
  familyD3 <- zip3 binomial_d3 mean response weights ;;
  a <- zip2 (fun m1 f3 => npow F m1 3 * f3) meanD1 familyD3 ;;
  b <- zip3 (fun m1 m2 f2 => #3 * m1 * m2 * f2) meanD1 meanD2 familyD2 ;;
  c <- zip2 (nmul F) meanD3 familyD1 ;;
  zip3 (fun x y z => x + y + z) a b c.

(** src/Family.cpp lines 103-127. *)
Definition evaluateFourthDerivative (fam : family) (lp response weights : list F) : outcome (list F) :=
  let mean := computeMean (fam_link fam) lp in
  let mean := checkMean mean in
  let meanD1 := computeMeanDerivative (fam_link fam) lp in
  let meanD2 := computeMeanSecondDerivative (fam_link fam) lp in
  let meanD3 := computeMeanThirdDerivative (fam_link fam) lp in
  let meanD4 := computeMeanFourthDerivative (fam_link fam) lp in
  familyD1 <- zip3 binomial_d1 mean response weights ;;
  familyD2 <- zip3 binomial_d2 mean response weights ;;
  familyD3 <- zip3 binomial_d3 mean response weights ;;
  familyD4 <- zip3 binomial_d4 mean response weights ;;
  t4 <- zip2 (fun m1 f4 => npow F m1 4 * f4) meanD1 familyD4 ;;
  t3 <- zip3 (fun m1 m2 f3 => #6 * npow F m1 2 * m2 * f3) meanD1 meanD2 familyD3 ;;
  u <- zip3 (fun m1 m2 m3 => #4 * m1 * m3 + #3 * npow F m2 2) meanD1 meanD2 meanD3 ;;
  t2 <- zip2 (nmul F) u familyD2 ;;
  t1 <- zip2 (nmul F) meanD4 familyD1 ;;
  s <- zip3 (fun x y z => x + y + z) t4 t3 t2 ;;
  zip2 (nadd F) s t1.

End Family.
