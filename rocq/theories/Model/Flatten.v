(** R/indexing.R and R/subformula.R: subformulas in which subscripts are taken together. *)
From Coq Require Import String List Reals Bool Arith ZArith.
From Verif Require Import Model.Base Model.Subexpr.
Import ListNotations.
Local Open Scope string_scope.

(** drop_index, R/subformula.R:38-52. *)
Fixpoint drop_index (x : rexpr) : rexpr :=
  match x with
  | Call (Name f :: xs) =>
      if String.eqb f "[" then match xs with y :: _ => drop_index y | [] => x end
      else Call (Name f :: (fix go (l : list rexpr) := match l with [] => [] | y :: l' => drop_index y :: go l' end) xs)
  | Call xs => Call ((fix go (l : list rexpr) := match l with [] => [] | y :: l' => drop_index y :: go l' end) xs)
  | _ => x
  end.

(** find_subvar, R/subformula.R:54-68, of a formula with two sides.  The left side of
    terms(subform) is that of subform. *)
Definition find_subvar (subform : rexpr) : outcome string :=
  match subform with
  | Call [Name "~"; lhs; _] => match drop_index lhs with Name s => Ok s | _ => Throw RuntimeError end
  | _ => Throw RuntimeError
  end.

(** matrix_indexing, R/indexing.R:137-155: x[i, j, ...] becomes x[cbind(i, j, ...)]; the
    subscripts are left as they are. *)
Fixpoint matrix_indexing (x : rexpr) : rexpr :=
  match x with
  | Call xs =>
      let zs := (fix go (l : list rexpr) := match l with [] => [] | y :: l' => matrix_indexing y :: go l' end) xs in
      match xs with
      | Name f :: y :: is => if (String.eqb f "[" && (1 <? length is)%nat)%bool then Call [Name f; y; Call (Name "cbind" :: is)] else Call zs
      | _ => Call zs
      end
  | _ => x
  end.

(** flatten_formula, R/indexing.R:157-174, [d] being the number of indices.
    formula(terms(formula)) is taken to be the formula itself, which is so if it has no
    dot; attributes are not modelled. *)
Definition flatten_formula (d : nat) (formula : rexpr) : outcome rexpr :=
  s <- find_subvar formula ;;
  match formula with
  | Call [Name "~"; _; rhs] =>
      let flat := Call [Name "~"; Name s; rhs] in
      Ok (if (1 <? d)%nat then matrix_indexing flat else flat)
  | _ => Throw RuntimeError
  end.

Section Values.
(** The elements of vectors and arrays, with numbers and integers among them, those that
    can be subscripts, and functions that work element by element. *)
Variable E : Type.
Variable const : R -> E.
Variable to_int : E -> option Z.
Variable fn : string -> list E -> E.

(** A vector, which has no dimensions, or an array: elements are in R's order, the first
    subscript varying fastest. *)
Record arr := mkArr { a_elems : list E; a_dims : list Z }.
Definition vector (l : list E) : arr := mkArr l [].

(** The k-th element of a vector that is recycled.  (A vector without elements is not
    modelled here.) *)
Definition recycled_at (l : list E) (k : nat) : outcome E :=
  match nth_error l (k mod length l) with Some x => Ok x | None => Throw RuntimeError end.
Definition longest (ls : list (list E)) : nat := fold_right Nat.max 0%nat (map (@length E) ls).

(** A function that works element by element.  Dimensions of the result are left out:
    nothing below depends on them, if it is names that have subscripts. *)
Definition elementwise (f : string) (args : list arr) : outcome arr :=
  let ls := map a_elems args in
  v <- mapM (fun k => es <- mapM (fun l => recycled_at l k) ls ;; Ok (fn f es)) (seq 0 (longest ls)) ;;
  Ok (vector v).

(** cbind: matrices, which have two dimensions, and other values, as columns.  The number
    of rows is that of the first matrix, or the length of the longest vector. *)
Definition is_matrix (a : arr) : option (nat * nat) := match a_dims a with [n; c] => Some (Z.to_nat n, Z.to_nat c) | _ => None end.
Definition columns_of (a : arr) : list (list E) :=
  match is_matrix a with
  | Some (n, c) => map (fun j => firstn n (skipn (j * n) (a_elems a))) (seq 0 c)
  | None => [a_elems a]
  end.
Fixpoint matrix_rows (args : list arr) : option nat :=
  match args with
  | [] => None
  | a :: args' => match is_matrix a with Some (n, _) => Some n | None => matrix_rows args' end
  end.
Definition same_rows (n : nat) (args : list arr) : bool :=
  forallb (fun a => match is_matrix a with Some (m, _) => Nat.eqb m n | None => true end) args.
Definition cbind (args : list arr) : outcome arr :=
  let n := match matrix_rows args with Some n => n | None => longest (map a_elems args) end in
  if same_rows n args then
    let cols := concat (map columns_of args) in
    vs <- mapM (fun l => mapM (recycled_at l) (seq 0 n)) cols ;;
    Ok (mkArr (concat vs) [Z.of_nat n; Z.of_nat (length cols)])
  else Throw RuntimeError.

(** The integers of a value used as a subscript, and the element at a place from 1.
    (Zero, negative numbers, NA and places outside are not modelled: an error.) *)
Definition ints (l : list E) : outcome (list Z) := mapM (fun x => match to_int x with Some z => Ok z | None => Throw RuntimeError end) l.
Definition place (l : list E) (i : Z) : outcome E :=
  if (i <? 1)%Z then Throw RuntimeError else match nth_error l (Z.to_nat (i - 1)) with Some x => Ok x | None => Throw RuntimeError end.
(** The place of the element with the subscripts [t] in an array. *)
Fixpoint offset (dims t : list Z) : outcome Z :=
  match dims, t with
  | [], [] => Ok 0%Z
  | n :: dims', i :: t' => if ((1 <=? i) && (i <=? n))%bool%Z then o <- offset dims' t' ;; Ok (i - 1 + n * o)%Z else Throw RuntimeError
  | _, _ => Throw RuntimeError
  end.
Definition element (u : arr) (t : list Z) : outcome E := o <- offset (a_dims u) t ;; place (a_elems u) (o + 1).

(** All the tuples with components from the lists, the first varying fastest. *)
Fixpoint outer (ls : list (list Z)) : list (list Z) :=
  match ls with
  | [] => [[]]
  | l :: ls' => concat (map (fun t => map (fun i => i :: t) l) (outer ls'))
  end.
(** Dimensions of length 1 are dropped, and an array of one dimension becomes a vector. *)
Definition dropped (dims : list Z) : list Z :=
  let d := filter (fun n => negb (Z.eqb n 1)) dims in if (length d <=? 1)%nat then [] else d.

(** u[i], with one subscript: a matrix with a column for each dimension of u picks
    elements one by one, anything else is used as a vector of places.
    u[i, j, ...]: all the combinations. *)
Definition subscript (u : arr) (is : list arr) : outcome arr :=
  match is with
  | [i] =>
      js <- ints (a_elems i) ;;
      match is_matrix i with
      | Some (n, c) =>
          if Nat.eqb c (length (a_dims u)) then
            v <- mapM (fun k => element u (map (fun j => nth (k + j * n) js 0%Z) (seq 0 c))) (seq 0 n) ;; Ok (vector v)
          else v <- mapM (place (a_elems u)) js ;; Ok (vector v)
      | None => v <- mapM (place (a_elems u)) js ;; Ok (vector v)
      end
  | _ =>
      js <- mapM (fun i => ints (a_elems i)) is ;;
      v <- mapM (element u) (outer js) ;;
      Ok (mkArr v (dropped (map (fun l => Z.of_nat (length l)) js)))
  end.

(** Evaluation in a list; the first variable with a name counts. *)
Definition variables := list (string * arr).
Definition fetch (e : variables) (s : string) : outcome arr :=
  match find (fun nv => String.eqb (fst nv) s) e with Some nv => Ok (snd nv) | None => Throw RuntimeError end.
Fixpoint evaluate (e : variables) (x : rexpr) : outcome arr :=
  match x with
  | Const c => Ok (vector [const c])
  | Name s => fetch e s
  | Call (Name f :: args) =>
      vs <- (fix go (l : list rexpr) : outcome (list arr) :=
               match l with
               | [] => Ok []
               | y :: l' => v <- evaluate e y ;; r <- go l' ;; Ok (v :: r)
               end) args ;;
      if String.eqb f "[" then match vs with u :: i :: is => subscript u (i :: is) | _ => Throw RuntimeError end
      else if String.eqb f "cbind" then cbind vs
      else elementwise f vs
  | Call _ => Throw RuntimeError
  end.

(** The data in which the covariates of the flat subformula are found, R/subformula.R:128
    and 131-135: the columns of expand.grid for indices of the given names and lengths,
    zeros for the substituted variable, and the data. *)
Variable code : Z -> E.
Variable zero : E.
Definition grid_column (dims : list Z) (k : nat) : list E :=
  map (fun t => code (nth k t 0%Z)) (outer (map (fun n => map Z.of_nat (seq 1 (Z.to_nat n))) dims)).
Definition data_subform (indices : list (string * Z)) (subvar : string) (data : variables) : variables :=
  let dims := map snd indices in
  (map (fun k => (nth k (map fst indices) "", vector (grid_column dims k))) (seq 0 (length indices)) ++
  (subvar, vector (repeat zero (Z.to_nat (fold_right Z.mul 1%Z dims)))) :: data)%list.
End Values.
