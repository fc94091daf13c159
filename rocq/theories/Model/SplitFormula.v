(** R/subformula.R:1-35 and R/utility.R:42-65: taking the Sub() terms out of a formula.
    terms(), drop.terms(), reformulate() and the parser are those of R, as far as they are
    needed. *)
From Coq Require Import String List Reals Bool.
From Verif Require Import Model.Base Model.Subexpr.
Import ListNotations.
Local Open Scope string_scope.
Local Open Scope R_scope.

(** A terms object: the response, the labels of the terms, as the expressions they are the
    text of, the offsets and whether there is an intercept. *)
Record terms := mkTerms { t_lhs : rexpr; t_labels : list rexpr; t_offsets : list rexpr; t_intercept : bool }.

(** terms(formula), for the right side.  Parentheses are dropped; offset() is not among the
    labels; a | b is a variable like others.  Products x * z and the like, which R
    writes out, are kept as one term here; terms that occur twice are not put together, and
    only 1 and 0 can be subtracted.  (R puts terms of higher order behind others.) *)
Definition constant (st : terms) (positive : bool) (c : R) : outcome terms :=
  if Req_EM_T c 1 then Ok (mkTerms (t_lhs st) (t_labels st) (t_offsets st) positive)
  else if Req_EM_T c 0 then Ok (mkTerms (t_lhs st) (t_labels st) (t_offsets st) (negb positive))
  else Throw RuntimeError.
Fixpoint read_terms (st : terms) (x : rexpr) : outcome terms :=
  let label := Ok (mkTerms (t_lhs st) (t_labels st ++ [x]) (t_offsets st) (t_intercept st)) in
  match x with
  | Const c => constant st true c
  | Name _ => label
  | Call [Name f; a; b] =>
      if String.eqb f "+" then st' <- read_terms st a ;; read_terms st' b
      else if String.eqb f "-" then
        st' <- read_terms st a ;; match b with Const c => constant st' false c | _ => Throw RuntimeError end
      else label
  | Call [Name f; a] =>
      if String.eqb f "(" then read_terms st a
      else if String.eqb f "-" then match a with Const c => constant st false c | _ => Throw RuntimeError end
      else if String.eqb f "offset" then Ok (mkTerms (t_lhs st) (t_labels st) (t_offsets st ++ [x]) (t_intercept st))
      else label
  | Call _ => label
  end.
Definition terms_of (formula : rexpr) : outcome terms :=
  match formula with
  | Call [Name f; lhs; rhs] => if String.eqb f "~" then read_terms (mkTerms lhs [] [] true) rhs else Throw RuntimeError
  | _ => Throw RuntimeError
  end.

(** Text, as far as operators are concerned that are not tighter than +.  (Those that
    are weaker than +, other than the bar, are not modelled.) *)
Inductive token := TItem (x : rexpr) | TPlus | TMinus | TBar.
Fixpoint deparse (x : rexpr) : list token :=
  match x with
  | Call [Name f; a; b] =>
      if String.eqb f "+" then deparse a ++ TPlus :: deparse b
      else if String.eqb f "-" then deparse a ++ TMinus :: deparse b
      else if String.eqb f "|" then deparse a ++ TBar :: deparse b
      else [TItem x]
  | _ => [TItem x]
  end.

(** The parser: all of these operators work from the left, and the bar is weaker than
    the others.  [left] is what is before the last bar, [current] the sum after it. *)
Definition closed (left : option rexpr) (current : rexpr) : rexpr :=
  match left with Some l => Call [Name "|"; l; current] | None => current end.
Fixpoint parse_rest (left : option rexpr) (current : rexpr) (ts : list token) : outcome rexpr :=
  match ts with
  | [] => Ok (closed left current)
  | TPlus :: TItem x :: ts' => parse_rest left (Call [Name "+"; current; x]) ts'
  | TMinus :: TItem x :: ts' => parse_rest left (Call [Name "-"; current; x]) ts'
  | TBar :: TItem x :: ts' => parse_rest (Some (closed left current)) x ts'
  | _ => Throw RuntimeError
  end.
Definition parse (ts : list token) : outcome rexpr :=
  match ts with TItem x :: ts' => parse_rest None x ts' | _ => Throw RuntimeError end.

(** paste(texts, collapse = " + ") *)
Fixpoint paste (texts : list (list token)) : list token :=
  match texts with
  | [] => []
  | [t] => t
  | t :: texts' => t ++ TPlus :: paste texts'
  end.

(** drop.terms(termobj, dropx, keep.response = TRUE) for the terms that [keep] does not
    want: the labels that remain are pasted together and read again, with the
    intercept of the object. *)
Definition drop_terms (tf : terms) (keep : rexpr -> bool) : outcome terms :=
  rhs <- parse (paste (map deparse (filter keep (t_labels tf))) ++ if t_intercept tf then [] else [TMinus; TItem (Const 1)]) ;;
  terms_of (Call [Name "~"; t_lhs tf; rhs]).

(** fixFormulaObject, R/utility.R:44-65.  The text of a label that contains a bar, in
    parentheses, is read as the label in parentheses. *)
Fixpoint has_bar (x : rexpr) : bool :=
  match x with
  | Call xs => existsb (fun h => is_name h "|") (firstn 1 xs) || (fix go l := match l with [] => false | y :: l' => has_bar y || go l' end) xs
  | _ => false
  end.
Definition fixFormulaObject (tf : terms) : outcome rexpr :=
  let tmp := map (fun l => if has_bar l then [TItem (Call [Name "("; l])] else deparse l) (t_labels tf) in
  let tmp' := (tmp ++ map (fun o => [TItem o]) (t_offsets tf))%list in
  let rhs := match tmp' with [] => [TItem (Const 1)] | _ => paste tmp' end in
  let rhs' := (if t_intercept tf then rhs else rhs ++ [TMinus; TItem (Const 1)])%list in
  r <- parse rhs' ;; Ok (Call [Name "~"; t_lhs tf; r]).

(** A term Sub(expr), and a term that has Sub() within an interaction. *)
Definition is_sub (x : rexpr) : option rexpr := match x with Call [Name f; e] => if String.eqb f "Sub" then Some e else None | _ => None end.
Fixpoint within_interaction (x : rexpr) : bool :=
  match x with
  | Call [Name f; a; b] =>
      if String.eqb f ":" then
        within_interaction a || within_interaction b || match is_sub a with Some _ => true | None => false end || match is_sub b with Some _ => true | None => false end
      else false
  | _ => false
  end.

(** split_formula, R/subformula.R:10-35, with find_subexpr, lines 1-3, and find_var_rhs,
    lines 6-8.  Where a Sub() term is within an interaction the text from the fifth
    character of the label is usually not an expression: an error here. *)
Definition split_formula (formula : rexpr) : outcome (rexpr * list rexpr) :=
  tf <- terms_of formula ;;
  if existsb within_interaction (t_labels tf) then Throw RuntimeError
  else
    let subexprs := flat_map (fun l => match is_sub l with Some e => [e] | None => [] end) (t_labels tf) in
    match subexprs with
    | [] => Ok (formula, [])
    | _ =>
        if Nat.ltb (length subexprs) (length (t_labels tf)) then
          let tf1 := mkTerms (t_lhs tf) (t_labels tf) (t_offsets tf) true in
          tf_no_sub <- drop_terms tf1 (fun l => match is_sub l with Some _ => false | None => true end) ;;
          form_no_sub <- fixFormulaObject (mkTerms (t_lhs tf_no_sub) (t_labels tf_no_sub) (t_offsets tf_no_sub) false) ;;
          Ok (form_no_sub, subexprs)
        else Ok (Call [Name "~"; t_lhs tf; Const 0], subexprs)
    end.
