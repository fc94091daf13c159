(** The linear predictor of a model frame, and the meaning of an expression. *)
From Coq Require Import String List Reals Bool Arith ZArith.
From Verif Require Import Model.Base Model.Subexpr Spec.IndexSpec.
Import ListNotations.
Local Open Scope R_scope.

Fixpoint dot (u v : list R) : R :=
  match u, v with
  | x :: u', y :: v' => x * y + dot u' v'
  | _, _ => 0
  end.

Definition random (f : mframe) : bool := match mf_Zt f with Some _ => true | None => false end.

(** X beta + Z b, by rows. *)
Definition rows_of (f : mframe) : nat := length (mf_X f).
Definition lin (beta b : list R) (f : mframe) : list R :=
  map (fun k => dot (nth k (mf_X f) []) beta + match mf_Zt f with Some Zt => dot (nth k Zt []) b | None => 0 end) (seq 0 (rows_of f)).

(** A frame with matrices of the sizes it says. *)
Definition matrices (f : mframe) : Prop :=
  List.Forall (fun r => length r = mf_p f) (mf_X f) /\
  match mf_Zt f with Some Zt => length Zt = rows_of f /\ List.Forall (fun c => length c = mf_q f) Zt | None => True end.

(** The elements of an array with the given dimensions: in the order of expand.grid. *)
Fixpoint find_row (t : list Z) (rows : list (list Z)) : option nat :=
  match rows with
  | [] => None
  | r :: rows' => if list_eq_dec Z.eq_dec r t then Some O else match find_row t rows' with Some k => Some (S k) | None => None end
  end.
Definition array_at (dims : list Z) (v : list R) (t : list Z) : outcome R :=
  match find_row t (grid dims) with Some k => vec_at v k | None => Throw RuntimeError end.
Definition array (dims : list Z) (v : list R) : value := Array v (array_at dims v).

(** The names in an expression. *)
Fixpoint occurs (s : string) (x : rexpr) : bool :=
  match x with
  | Const _ => false
  | Name t => String.eqb t s
  | Call xs => (fix go l := match l with [] => false | y :: l' => occurs s y || go l' end) xs
  end.

(** A number somewhere in an expression. *)
Fixpoint has_number (x : rexpr) : bool :=
  match x with
  | Const _ => true
  | Name _ => false
  | Call xs => (fix go l := match l with [] => false | y :: l' => has_number y || go l' end) xs
  end.

(** A property of all the calls in an expression. *)
Fixpoint all_calls (P : list rexpr -> Prop) (x : rexpr) : Prop :=
  match x with
  | Const _ | Name _ => True
  | Call xs => P xs /\ (fix go l := match l with [] => True | y :: l' => all_calls P y /\ go l' end) xs
  end.

Section Meaning.
Variable other : string -> list (list R) -> outcome (list R).
Variable data : env.
Variable subvar : string.

(** What the expression means when the variable stands for an array of numbers. *)
Definition meaning (dims : list Z) (eta : list R) (x : rexpr) : outcome (list R) :=
  v <- eval other ((subvar, array dims eta) :: data) x ;; as_vec v.

(** No number in the first two arguments. *)
Definition no_numbers (xs : list rexpr) : Prop := List.Forall (fun x => has_number x = false) (firstn 2 (tl xs)).

(** Where the variable is multiplied or divided, it is by a single number -- or, if
    there are no random effects, by as many numbers as there are rows. *)
Definition multipliers (random : bool) (dims : list Z) (eta : list R) (xs : list rexpr) : Prop :=
  match xs with
  | [Name f; a; b] =>
      f = "*"%string \/ f = "/"%string ->
      (occurs subvar a = true -> occurs subvar b = false -> forall v, eval other data b = Ok (Vec v) ->
         length v = 1%nat \/ random = false /\ forall w, meaning dims eta a = Ok w -> length w = length v) /\
      (occurs subvar a = false -> occurs subvar b = true -> forall v, eval other data a = Ok (Vec v) ->
         length v = 1%nat \/ random = false /\ forall w, meaning dims eta b = Ok w -> length w = length v)
  | _ => True
  end.

(** Several subscripts are only used with the variable itself, and are within the
    dimensions for every observation. *)
Definition subscripts (dims : list Z) (xs : list rexpr) : Prop :=
  match xs with
  | Name f :: a :: rest =>
      f = "["%string -> (1 < length rest)%nat -> occurs subvar a = true ->
      a = Name subvar /\ List.Forall (fun r => occurs subvar r = false) rest /\
      forall vs, mapM (fun r => v <- eval other data r ;; as_index v) rest = Ok vs ->
        List.Forall (within dims) (tuples (length (hd [] vs)) vs)
  | _ => True
  end.

(** The variable is not used as a function. *)
Definition no_function (xs : list rexpr) : Prop := match xs with Name f :: _ => f <> subvar | _ => True end.

(** Every subscript of the variable has one part for each dimension. *)
Definition dimension (d : nat) (xs : list rexpr) : Prop :=
  match xs with
  | Name f :: Name s :: rest => f = "["%string -> s = subvar -> length rest = d
  | _ => True
  end.
End Meaning.

(** The data are vectors and factors. *)
Definition plain (data : env) : Prop :=
  forall s v, In (s, v) data -> match v with Vec _ | Codes _ => True | _ => False end.

(** The names made for several subscripts can be told from each other and from all the
    names in the expression. *)
Definition no_clash (x : rexpr) (flat : list (list string)) : Prop :=
  (forall n, In n flat -> occurs (join n) x = false) /\
  (forall n m, In n flat -> In m flat -> join n = join m -> n = m).

(** The expression involves one of the variables; two different ones. *)
Definition involves (subvars : list string) (x : rexpr) : Prop := exists s, In s subvars /\ occurs s x = true.
Definition involves_two (subvars : list string) (x : rexpr) : Prop :=
  exists s t, In s subvars /\ In t subvars /\ s <> t /\ occurs s x = true /\ occurs t x = true.
