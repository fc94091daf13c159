(** R/glmmFit.R: what is printed above the estimates of a fit, in print.glmmFit and in
    print.summaryGlmmFit. *)
From Coq Require Import String Ascii List Reals.
From Verif Require Import Model.Base Model.Control Model.Subexpr Model.SaveFile.
Import ListNotations.
Local Open Scope string_scope.
Notation length := List.length.

Section Heading.
(** as.character of a number, and what print(formula, showEnv = FALSE) writes, with the end
    of its last line. *)
Context (write : R -> string) (show : rexpr -> string).

(** A component of the list of options as paste writes it; NULL has length 0, for which
    paste has an empty string. *)
Definition component (x : option R) : string := match x with Some v => write v | None => "" end.

(** find_approximation_name, R/glmmFit.R:25-32; paste puts a blank between its arguments, as
    cat does (Model/SaveFile.v); what cat writes before the error is left out. *)
Definition find_approximation_name (method : string) (control : named) : outcome string :=
  if String.eqb method "Laplace" then Ok (cat ["Laplace approximation, order "; component (lookup "order" control)])
  else if String.eqb method "AGQ" then Ok (cat ["Adaptive Gaussian Quadrature with"; component (lookup "nAGQ" control); "points (lme4)"])
  else if String.eqb method "SR" then Ok (cat ["Sequential reduction at level"; component (lookup "nSL" control)])
  else if String.eqb method "IS" then Ok (cat ["Importance sampling with"; component (lookup "nIS" control); "samples"])
  else Throw RuntimeError.

(** The argument subformula of glmm, kept as modfr$subformula (R/subformula.R:187) if the
    formula has a Sub() term, otherwise there is none: NULL or a list, or a formula, which is
    a call and so has length at least 2. *)
Inductive subformula := FormulaList (l : list rexpr) | OneFormula (f : rexpr).

(** print_subformula, R/glmmFit.R:35-49. *)
Definition print_subformula (s : subformula) : string :=
  if match s with FormulaList l => Nat.ltb 0 (length l) | OneFormula _ => true end then
    let subform := match s with FormulaList l => l | OneFormula f => [f] end in
    (if Nat.ltb 1 (length subform) then "Subformulas: " ++ newline else "Subformula: ")
    ++ String.concat "" (map show subform)
  else "".

(** The first lines of print.glmmFit, R/glmmFit.R:59-66, and of print.summaryGlmmFit, lines
    121-128; the text is the same. *)
Definition heading (method : string) (control : named) (family link : string) (formula : rexpr) (s : subformula) : outcome string :=
  name <- find_approximation_name method control ;;
  Ok (cat ["Generalized linear mixed model fit by maximum likelihood [glmmFit] " ++ newline]
      ++ cat ["Likelihood approximation:"; name; newline ++ " " ++ newline]
      ++ cat ["Family:"; family; "("; link; ") " ++ newline]
      ++ cat ["Formula: "] ++ show formula ++ print_subformula s
      ++ cat [newline]).
End Heading.
