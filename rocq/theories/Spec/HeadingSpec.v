(** What the heading of a fit should tell. *)
From Coq Require Import String Ascii List ZArith Reals.
From Verif Require Import Model.Subexpr Model.Heading Spec.ControlSpec Spec.SaveSpec.
Import ListNotations.
Local Open Scope string_scope.

(** The option that sets how accurate a method is, and the value used: the user's or the
    documented default. *)
Definition accuracy (method : string) : string :=
  if String.eqb method "Laplace" then "order" else if String.eqb method "AGQ" then "nAGQ" else if String.eqb method "SR" then "nSL" else "nIS".
Definition value_used (method : string) (control : list (string * R)) : R :=
  match given (accuracy method) control with Some v => v | None => documented_default (accuracy method) end.
(** The value is a whole number that is written without rounding. *)
Definition written_exactly (limit : Z) (method : string) (control : list (string * R)) : Prop :=
  exists z, value_used method control = IZR z /\ (Z.abs z < limit)%Z.

(** The words before and after the number. *)
Definition words_around (method : string) : string * string :=
  if String.eqb method "Laplace" then ("Laplace approximation, order  ", "")
  else if String.eqb method "AGQ" then ("Adaptive Gaussian Quadrature with ", " points (lme4)")
  else if String.eqb method "SR" then ("Sequential reduction at level ", "")
  else ("Importance sampling with ", " samples").

(** A name without blanks and ends of lines; formulas that take one line. *)
Definition one_word (s : string) : Prop := has_char " " s = false /\ has_char (ascii_of_nat 10) s = false.
Definition one_line (show : rexpr -> string) : Prop :=
  forall f, exists line, line <> "" /\ has_char (ascii_of_nat 10) line = false /\ show f = line ++ String (ascii_of_nat 10) "".
Definition formulas (s : subformula) : list rexpr := match s with FormulaList l => l | OneFormula f => [f] end.
