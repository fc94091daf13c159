(** What the options should be, independent of the code: the documentation in R/fit.R
    (lines 25-42). *)
From Coq Require Import String List Reals.
Import ListNotations.
Local Open Scope string_scope.
Local Open Scope R_scope.

(** The documented options of a method. *)
Definition options_of (method : string) : list string :=
  if String.eqb method "Laplace" then ["order"; "check_Laplace"; "divergence_threshold"]
  else if String.eqb method "AGQ" then ["nAGQ"]
  else if String.eqb method "SR" then ["nSL"]
  else if String.eqb method "IS" then ["nIS"]
  else [].
Definition methods : list string := ["Laplace"; "AGQ"; "SR"; "IS"].

(** The documented defaults. *)
Definition documented_default (name : string) : R :=
  if String.eqb name "nAGQ" then 15
  else if String.eqb name "nSL" then 3
  else if String.eqb name "nIS" then 1000
  else if String.eqb name "order" then 1
  else if String.eqb name "check_Laplace" then 1
  else 1 / 10.

(** The value given by the user: the last one, if an option is given twice. *)
Fixpoint given (name : string) (control : list (string * R)) : option R :=
  match control with
  | [] => None
  | (n, v) :: c => match given name c with Some x => Some x | None => if String.eqb n name then Some v else None end
  end.
