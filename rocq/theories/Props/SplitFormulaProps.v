(** C73: formulas with Sub() terms. *)
From Coq Require Import String List Reals.
From Verif Require Import Model.Base Model.Subexpr Model.SplitFormula Spec.SplitFormulaSpec Proofs.SplitFormulaMain.
Import ListNotations.
Local Open Scope string_scope.
Local Open Scope R_scope.
Notation length := List.length.

(** A formula without Sub() terms is left as it is. *)
Theorem C73_no_sub : forall lhs rhs, ordinary rhs -> substituted rhs = [] -> split_formula (Call [Name "~"; lhs; rhs]) = Ok (Call [Name "~"; lhs; rhs], []).
Proof. exact C73_no_sub_main. Qed.
Print Assumptions C73_no_sub.

(** If there are no random effects outside Sub(), or not more than one term, then the terms
    outside remain, the expressions in Sub() are returned, but there is no intercept and no
    offset. *)
Theorem C73_split : forall lhs rhs, ordinary rhs -> substituted rhs <> [] -> (random_outside rhs = [] \/ (length (terms_outside rhs) <= 1)%nat) ->
  exists rhs', split_formula (Call [Name "~"; lhs; rhs]) = Ok (Call [Name "~"; lhs; rhs'], substituted rhs) /\
  terms_outside rhs' = terms_outside rhs /\ intercept rhs' = false /\ offsets rhs' = [].
Proof. exact C73_split_main. Qed.
Print Assumptions C73_split.

Example C73_case : ordinary case_fixed /\ substituted case_fixed = [sub_ability] /\ random_outside case_fixed = [] /\ terms_outside case_fixed = [Name "x"] /\
  intercept case_fixed = true /\ offsets case_fixed = [Call [Name "offset"; Name "w"]].
Proof. exact case_fixed_main. Qed.

(** An intercept and an offset in the formula get lost. *)
Theorem C73_intercept_refuted : exists lhs rhs rhs' subs, ordinary rhs /\ split_formula (Call [Name "~"; lhs; rhs]) = Ok (Call [Name "~"; lhs; rhs'], subs) /\
  intercept rhs = true /\ intercept rhs' = false /\ offsets rhs <> [] /\ offsets rhs' = [].
Proof. exact C73_intercept_main. Qed.
Print Assumptions C73_intercept_refuted.

(** With random effects and any other term outside Sub(), all the fixed effects outside get
    lost, and what remains is one random-effects term. *)
Theorem C73_bars_refuted : forall lhs rhs, ordinary rhs -> substituted rhs <> [] -> random_outside rhs <> [] -> (2 <= length (terms_outside rhs))%nat ->
  exists rhs' r, split_formula (Call [Name "~"; lhs; rhs]) = Ok (Call [Name "~"; lhs; rhs'], substituted rhs) /\
  fixed_outside rhs' = [] /\ random_outside rhs' = [r] /\ intercept rhs' = false /\ offsets rhs' = [].
Proof. exact C73_bars_main. Qed.
Print Assumptions C73_bars_refuted.

(** y ~ x + (1 | g) + Sub(...) becomes y ~ (x + 1 | g) - 1. *)
Example C73_bars_case : ordinary case_bars /\ substituted case_bars = [sub_ability] /\ fixed_outside case_bars = [Name "x"] /\ random_outside case_bars = [Call [Name "|"; Const 1; Name "g"]] /\
  split_formula (Call [Name "~"; Name "y"; case_bars]) =
    Ok (Call [Name "~"; Name "y"; Call [Name "-"; group (plus (Name "x") (Const 1)) (Name "g"); Const 1]], [sub_ability]).
Proof. exact case_bars_main. Qed.
