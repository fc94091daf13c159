(** What a covariate of a subformula should be in each row. *)
From Coq Require Import String List Reals Bool Arith ZArith.
From Verif Require Import Model.Base Model.Subexpr Model.Flatten Spec.IndexSpec.
Import ListNotations.
Local Open Scope string_scope.

Section Rows.
Variable E : Type.
Variable const : R -> E.
Variable to_int : E -> option Z.
Variable fn : string -> list E -> E.
Variable code : Z -> E.

(** A variable: one of the indices, an array with its elements, or something that has a
    value in each row of the subformula. *)
Inductive var := Index (k : nat) | Array (dims : list Z) (f : list Z -> E) | Along (f : list Z -> E).

Fixpoint all {A : Type} (l : list (option A)) : option (list A) :=
  match l with
  | [] => Some []
  | None :: _ => None
  | Some x :: l' => match all l' with Some r => Some (x :: r) | None => None end
  end.
Definition inside (dims t : list Z) : bool := Nat.eqb (length dims) (length t) && forallb (fun p => (1 <=? snd p)%Z && (snd p <=? fst p)%Z) (combine dims t).

(** The value of an expression in the row with the indices t: arrays have the value at
    the values of the subscripts, and functions work row by row. *)
Fixpoint meaning (V : string -> option var) (t : list Z) (x : rexpr) : option E :=
  match x with
  | Const c => Some (const c)
  | Name s =>
      match V s with
      | Some (Index k) => Some (code (nth k t 0%Z))
      | Some (Along f) => Some (f t)
      | _ => None
      end
  | Call (Name f :: y :: args) =>
      let vs := all ((fix go (l : list rexpr) := match l with [] => [] | z :: l' => meaning V t z :: go l' end) args) in
      if String.eqb f "[" then
        match y with
        | Name a =>
            match V a, vs with
            | Some (Array dims g), Some es =>
                match all (map to_int es) with
                | Some is => if inside dims is then Some (g is) else None
                | None => None
                end
            | _, _ => None
            end
        | _ => None
        end
      else if String.eqb f "cbind" then None
      else match meaning V t y, vs with Some e, Some es => Some (fn f (e :: es)) | _, _ => None end
  | Call _ => None
  end.

(** The variables have these values, for indices that go from 1 to L: each vector has the
    values in the order of the rows of expand.grid, and each array those in the order of
    its subscripts, the first varying fastest.  A vector is an array of one dimension. *)
Record holds (L : list Z) (V : string -> option var) (e : variables E) : Prop := {
  ho_index : forall s k, V s = Some (Index k) -> fetch E e s = Ok (mkArr E (map (fun t => code (nth k t 0%Z)) (grid L)) []);
  ho_array : forall s dims f, V s = Some (Array dims f) -> dims <> [] /\ exists d, fetch E e s = Ok (mkArr E (map f (grid dims)) d) /\ (d = dims \/ d = [] /\ length dims = 1%nat);
  ho_along : forall s f, V s = Some (Along f) -> fetch E e s = Ok (mkArr E (map f (grid L)) [])
}.

(** The variables of a subformula with the given indices, of which the data has those that
    are not indices and not the substituted variable. *)
Record described (indices : list (string * Z)) (subvar : string) (data : variables E) (V : string -> option var) : Prop := {
  de_names : NoDup (map fst indices);
  de_subvar : ~ In subvar (map fst indices);
  de_levels : Forall (fun n => (1 <= n)%Z) (map snd indices);
  de_index : forall s k, V s = Some (Index k) -> nth_error (map fst indices) k = Some s;
  de_array : forall s dims f, V s = Some (Array dims f) -> ~ In s (map fst indices) /\ s <> subvar /\ dims <> [] /\
    exists d, fetch E data s = Ok (mkArr E (map f (grid dims)) d) /\ (d = dims \/ d = [] /\ length dims = 1%nat);
  de_along : forall s f, V s = Some (Along f) -> ~ In s (map fst indices) /\ s <> subvar /\
    fetch E data s = Ok (mkArr E (map f (grid (map snd indices))) [])
}.
End Rows.
Arguments Index {E}. Arguments Array {E}. Arguments Along {E}.

(** x[i, j, ...] does not occur in an expression; it does not occur within the subscripts
    of such a thing. *)
Fixpoint no_multiple (x : rexpr) : bool :=
  match x with
  | Call xs =>
      (fix go (l : list rexpr) := match l with [] => true | y :: l' => no_multiple y && go l' end) xs &&
      match xs with Name f :: _ :: _ :: _ :: _ => negb (String.eqb f "[") | _ => true end
  | _ => true
  end.
Fixpoint not_nested (x : rexpr) : bool :=
  match x with
  | Call xs =>
      match xs with
      | Name f :: y :: is =>
          if String.eqb f "[" && (1 <? length is)%nat then forallb no_multiple is
          else (fix go (l : list rexpr) := match l with [] => true | y :: l' => not_nested y && go l' end) xs
      | _ => (fix go (l : list rexpr) := match l with [] => true | y :: l' => not_nested y && go l' end) xs
      end
  | _ => true
  end.

(** The value of an evaluated expression in row r, if it is recycled to the number of
    rows. *)
Definition in_row {E : Type} (v : list E) (r : nat) : option E := nth_error v (r mod length v).

(** A variable, with subscripts or without. *)
Inductive subscripted (s : string) : rexpr -> Prop :=
| sub_name : subscripted s (Name s)
| sub_index : forall y is, subscripted s y -> subscripted s (Call (Name "[" :: y :: is)).
