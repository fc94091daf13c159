(** src/Parameters.cpp and src/accessParameters.cpp, with the R6 class
    calibration_parameters of inst/calibration_parameters.yml. *)
From Coq Require Import String List ZArith Reals.
From Verif Require Import Model.Base Model.Family Model.SparseGrid Model.Vectors Model.BasisLevel Model.Quadrature.
Import ListNotations.

(** Members, inst/include/Parameters.h:14-28; the pointers of Family and Link are
    null in a new Family (src/Family.cpp:3-5, src/Link.cpp:6-8,
    src/FamilyGivenMean.cpp:8-10).  [pa_levels] and [pa_levelMax] are the members
    of sparseBasis (inst/include/Basis.h). *)
Record params := mkParams {
  pa_theta : list R; pa_beta : list R;
  pa_link : option link; pa_given : option familyGivenMean;
  pa_levels : list blevel; pa_levelMax : Z;
  pa_rule : rule
}.
(** src/Parameters.cpp:3-8, src/Basis.cpp:3-5, src/QuadratureRule.cpp:3-5. *)
Definition params_new : params := mkParams [] [] None None [] 0 (mkRule [] []).

(** What a call leaves behind, and how it ends. *)
Definition attempt {A} (p : params) (o : outcome A) (k : A -> params * outcome unit) : params * outcome unit :=
  match o with
  | Ok a => k a
  | Throw e => (p, Throw e)
  | UB => (p, UB)
  | NoFuel => (p, NoFuel)
  end.

(** The fields theta and beta (inst/calibration_parameters.yml:9-16). *)
Definition setTheta (p : params) (v : list R) : params * outcome unit :=
  (mkParams v (pa_beta p) (pa_link p) (pa_given p) (pa_levels p) (pa_levelMax p) (pa_rule p), Ok tt).
Definition setBeta (p : params) (v : list R) : params * outcome unit :=
  (mkParams (pa_theta p) v (pa_link p) (pa_given p) (pa_levels p) (pa_levelMax p) (pa_rule p), Ok tt).

(** getName, src/Binomial.cpp:54-57, src/LogitLink.cpp, src/ProbitLink.cpp:
    through the pointer, src/FamilyGivenMean.cpp:66-69, src/Link.cpp:51-54. *)
Definition familyName (g : option familyGivenMean) : outcome string :=
  match g with Some Binomial => Ok "binomial"%string | None => UB end.
Definition linkName (l : option link) : outcome string :=
  match l with Some Logit => Ok "logit"%string | Some Probit => Ok "probit"%string | None => UB end.

(** src/accessParameters.cpp:17-31. *)
Definition getParametersFamily (p : params) : outcome string := familyName (pa_given p).
Definition setParametersFamily (p : params) (name : string) : params * outcome unit :=
  attempt p (familyGivenMean_initialize name) (fun newFamilyGivenMean =>
    (mkParams (pa_theta p) (pa_beta p) (pa_link p) (Some newFamilyGivenMean) (pa_levels p) (pa_levelMax p) (pa_rule p), Ok tt)).

(** src/accessParameters.cpp:33-47. *)
Definition getParametersLink (p : params) : outcome string := linkName (pa_link p).
Definition setParametersLink (p : params) (name : string) : params * outcome unit :=
  attempt p (link_initialize name) (fun newLink =>
    (mkParams (pa_theta p) (pa_beta p) (Some newLink) (pa_given p) (pa_levels p) (pa_levelMax p) (pa_rule p), Ok tt)).

Section Numerics.
(** As for [basis_new] and [rule_initialize]. *)
Context (quantile : R -> R) (inverse : rmat -> rmat) (solve : rmat -> rmat -> rmat) (es : rmat -> rvec * rmat).

(** Basis(int), src/Basis.cpp:7-11, for any int: there are no levels if levelMax is
    negative, and levelMax + 1 overflows at the largest int. *)
Definition basis_levels (levelMax : Z) : outcome (list blevel) :=
  if Z.eqb levelMax (2 ^ 31 - 1) then UB
  else if Z.ltb levelMax 0 then Ok []
  else b <- basis_new quantile inverse solve (Z.to_nat levelMax) ;; Ok (b_levels b).
(** src/accessParameters.cpp:50-61. *)
Definition getParametersNSparseLevels (p : params) : outcome Z := Ok (pa_levelMax p).
Definition setParametersNSparseLevels (p : params) (n : Z) : params * outcome unit :=
  attempt p (basis_levels n) (fun newBasis =>
    (mkParams (pa_theta p) (pa_beta p) (pa_link p) (pa_given p) newBasis n (pa_rule p), Ok tt)).

(** QuadratureRule(int), src/QuadratureRule.cpp:7-10, for any int: a negative size,
    or the first row of a matrix without rows, are only asserted against by Eigen. *)
Definition rule_new (n : Z) : outcome rule :=
  if Z.ltb n 1 then UB else Ok (rule_initialize es (Z.to_nat n)).
(** src/accessParameters.cpp:63-74. *)
Definition getParametersNQuadraturePoints (p : params) : outcome Z := Ok (Z.of_nat (length (qr_nodes (pa_rule p)))).
Definition setParametersNQuadraturePoints (p : params) (n : Z) : params * outcome unit :=
  attempt p (rule_new n) (fun newRule =>
    (mkParams (pa_theta p) (pa_beta p) (pa_link p) (pa_given p) (pa_levels p) (pa_levelMax p) newRule, Ok tt)).

(** One statement after another. *)
Definition and_then (r : params * outcome unit) (k : params -> params * outcome unit) : params * outcome unit :=
  attempt (fst r) (snd r) (fun _ => k (fst r)).
(** makeParametersR, src/accessParameters.cpp:4-15. *)
Definition makeParametersR : params * outcome unit :=
  and_then (setTheta params_new []) (fun p =>
  and_then (setBeta p []) (fun p =>
  and_then (setParametersFamily p "binomial") (fun p =>
  and_then (setParametersLink p "logit") (fun p =>
  and_then (setParametersNSparseLevels p 1) (fun p =>
  setParametersNQuadraturePoints p 1))))).

(** Assignments to the active bindings, R/RcppR6.R:52-94. *)
Inductive assignment :=
| SetTheta (v : list R) | SetBeta (v : list R) | SetFamily (name : string) | SetLink (name : string)
| SetSparseLevels (n : Z) | SetQuadraturePoints (n : Z).
Definition assign (p : params) (c : assignment) : params * outcome unit :=
  match c with
  | SetTheta v => setTheta p v
  | SetBeta v => setBeta p v
  | SetFamily name => setParametersFamily p name
  | SetLink name => setParametersLink p name
  | SetSparseLevels n => setParametersNSparseLevels p n
  | SetQuadraturePoints n => setParametersNQuadraturePoints p n
  end.
(** A session that carries on after errors: whether each assignment succeeded, and
    what the object is in the end. *)
Fixpoint session (p : params) (cs : list assignment) : outcome (list bool * params) :=
  match cs with
  | [] => Ok ([], p)
  | c :: cs' =>
    match assign p c with
    | (p', Ok _) => r <- session p' cs' ;; Ok (true :: fst r, snd r)
    | (p', Throw _) => r <- session p' cs' ;; Ok (false :: fst r, snd r)
    | (_, UB) => UB
    | (_, NoFuel) => NoFuel
    end
  end.
End Numerics.
