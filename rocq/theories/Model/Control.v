(** R/control.R: completing the list of options.  R's TRUE and FALSE are 1 and 0, as
    R reads them in tests and arithmetic. *)
From Coq Require Import String List Reals Bool.
From Verif Require Import Model.Base.
Import ListNotations.
Local Open Scope string_scope.
Local Open Scope R_scope.

(** A named list with values that are single numbers; no name is empty.  (NULL, an
    unnamed list, is [].) *)
Definition named := list (string * R).

(** con$name or con[["name"]]: the first element with that name. *)
Definition lookup (name : string) (con : named) : option R :=
  match find (fun e => String.eqb (fst e) name) con with Some e => Some (snd e) | None => None end.

(** con$name <- v: replace the first element with that name, or append one. *)
Fixpoint set_name (con : named) (name : string) (v : R) : named :=
  match con with
  | [] => [(name, v)]
  | e :: con' => if String.eqb (fst e) name then (fst e, v) :: con' else e :: set_name con' name v
  end.

(** con[names(control)] <- control, line 67. *)
Definition set_names (con control : named) : named := fold_left (fun c e => set_name c (fst e) (snd e)) control con.

(** x %in% table. *)
Definition is_in (x : string) (table : list string) : bool := existsb (String.eqb x) table.

(** The defaults, lines 39-43. *)
Definition conLaplace : named := [("order", 1); ("check_Laplace", 0); ("divergence_threshold", 1 / 10)].
Definition conAGQ : named := [("nAGQ", 15)].
Definition conSR : named := [("nSL", 3)].
Definition conIS : named := [("nIS", 1000)].
Definition con_tot : named := (conLaplace ++ conAGQ ++ conSR ++ conIS)%list.

(** switch(method, ...), lines 45-50; a character vector of another length than 1 is
    an error of switch. *)
Definition defaults (method : string) : outcome named :=
  if String.eqb method "Laplace" then Ok conLaplace
  else if String.eqb method "AGQ" then Ok conAGQ
  else if String.eqb method "SR" then Ok conSR
  else if String.eqb method "IS" then Ok conIS
  else Throw RuntimeError.

(** The value of a component that is used as a number; a missing one (NULL) makes the
    test or the arithmetic fail. *)
Definition needed (x : option R) : outcome R := match x with Some v => Ok v | None => Throw RuntimeError end.

(** Whether a number exceeds another. *)
Definition exceeds (x y : R) : bool := if Rlt_dec y x then true else false.

(** find_control_with_defaults, R/control.R:34-80: the completed list, the names in the
    first warning and those in the second. *)
Definition find_control_with_defaults (control : named) (method : list string)
  : outcome (named * (list string * list string)) :=
  match method with
  | [m] =>
      con <- defaults m ;;
      let known := filter (fun e => is_in (fst e) (map fst con_tot)) control in
      let names_unknown := map fst (filter (fun e => negb (is_in (fst e) (map fst con_tot))) control) in
      let names_not_needed := map fst (filter (fun e => negb (is_in (fst e) (map fst con))) known) in
      let con1 := set_names con control in
      con2 <- (if String.eqb m "SR" then
                 nSL <- needed (lookup "nSL" con1) ;;
                 Ok (set_name con1 "nAGQ" (Rpower 2 (nSL + 1) - 1))
               else Ok con1) ;;
      con3 <- (if negb (String.eqb m "Laplace") then Ok (set_name con2 "check_Laplace" 0)
               else
                 order <- needed (lookup "order" con2) ;;
                 if exceeds order 1 then Ok (set_name con2 "check_Laplace" 0) else Ok con2) ;;
      Ok (con3, (names_unknown, names_not_needed))
  | _ => Throw RuntimeError
  end.
