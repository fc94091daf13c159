(** What a formula says. *)
From Coq Require Import String List Reals Bool.
From Verif Require Import Model.Subexpr.
Import ListNotations.
Local Open Scope string_scope.
Local Open Scope R_scope.

(** A call of a function with one or two arguments. *)
Definition call1 (f : string) (x : rexpr) : option rexpr := match x with Call [Name g; a] => if String.eqb g f then Some a else None | _ => None end.
Definition call2 (f : string) (x : rexpr) : option (rexpr * rexpr) := match x with Call [Name g; a; b] => if String.eqb g f then Some (a, b) else None | _ => None end.
Definition some {A} (o : option A) : bool := match o with Some _ => true | None => false end.

(** What is added up in the right side of a formula, without parentheses. *)
Fixpoint summands (x : rexpr) : list rexpr :=
  match x with
  | Call [Name f; a; b] => if String.eqb f "+" then (summands a ++ summands b)%list else if String.eqb f "-" then summands a else [x]
  | Call [Name f; a] => if String.eqb f "-" then [] else if String.eqb f "(" then summands a else [x]
  | _ => [x]
  end.
Definition is_constant (x : rexpr) : bool := match x with Const _ => true | _ => false end.
Definition is_offset (x : rexpr) : bool := some (call1 "offset" x).
Definition is_bar (x : rexpr) : bool := some (call2 "|" x).
Definition is_substitution (x : rexpr) : bool := some (call1 "Sub" x).

(** The terms outside Sub(); those of them that are fixed effects, and random effects; the
    offsets; and what is in the Sub() terms. *)
Definition terms_outside (rhs : rexpr) : list rexpr :=
  filter (fun x => negb (is_constant x || is_offset x || is_substitution x)) (summands rhs).
Definition fixed_outside (rhs : rexpr) : list rexpr := filter (fun x => negb (is_bar x)) (terms_outside rhs).
Definition random_outside (rhs : rexpr) : list rexpr := filter is_bar (terms_outside rhs).
Definition offsets (rhs : rexpr) : list rexpr := filter is_offset (summands rhs).
Definition substituted (rhs : rexpr) : list rexpr := flat_map (fun x => match call1 "Sub" x with Some e => [e] | None => [] end) (summands rhs).

(** There is an intercept unless the last constant in the formula says otherwise. *)
Definition setting (c : rexpr) : list bool := match c with Const x => if Req_EM_T x 1 then [true] else [false] | _ => [] end.
Fixpoint settings (x : rexpr) : list bool :=
  match x with
  | Call [Name f; a; b] => if String.eqb f "+" then (settings a ++ settings b)%list else if String.eqb f "-" then (settings a ++ map negb (setting b))%list else []
  | Call [Name f; a] => if String.eqb f "-" then map negb (setting a) else if String.eqb f "(" then settings a else []
  | _ => setting x
  end.
Definition intercept (rhs : rexpr) : bool := last (settings rhs) true.

(** Expressions as R's parser makes them, without parentheses around parts: sums are
    from the left, and bars are of sums. *)
Definition item (x : rexpr) : bool := negb (some (call2 "+" x) || some (call2 "-" x) || some (call2 "|" x)).
Fixpoint plain_sum (x : rexpr) : bool :=
  match x with
  | Call [Name f; a; b] => if String.eqb f "+" || String.eqb f "-" then plain_sum a && item b else item x
  | _ => true
  end.
Fixpoint parsed (x : rexpr) : bool :=
  match x with
  | Call [Name f; a; b] => if String.eqb f "|" then parsed a && plain_sum b else plain_sum x
  | _ => true
  end.

(** A formula: 1 and 0 are the only constants, and only they are subtracted; Sub() is not
    in interactions; all the terms are as the parser makes them. *)
Definition unit (x : rexpr) : Prop := match x with Const c => c = 1 \/ c = 0 | _ => False end.
Fixpoint subtractions (x : rexpr) : Prop :=
  match x with
  | Call [Name f; a; b] => if String.eqb f "+" then subtractions a /\ subtractions b else if String.eqb f "-" then subtractions a /\ unit b else True
  | Call [Name f; a] => if String.eqb f "-" then unit a else if String.eqb f "(" then subtractions a else True
  | _ => True
  end.
Fixpoint in_interaction (x : rexpr) : bool :=
  match x with
  | Call [Name f; a; b] => String.eqb f ":" && (in_interaction a || in_interaction b || is_substitution a || is_substitution b)
  | _ => false
  end.
Record ordinary (rhs : rexpr) : Prop := {
  or_subtractions : subtractions rhs;
  or_constants : forall x, In x (summands rhs) -> is_constant x = true -> unit x;
  or_interactions : forall x, In x (summands rhs) -> in_interaction x = false;
  or_parsed : forall x, In x (summands rhs) -> parsed x = true
}.
