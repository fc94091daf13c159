(** R/indexing.R: the indices of a substituted variable. *)
From Coq Require Import String List ZArith Bool Arith DecimalString.
From Verif Require Import Model.Base Model.Indexing Model.Subexpr.
Import ListNotations.
Local Open Scope string_scope.

(** A variable of the data: a factor, with codes from 1 (None for NA) and levels; a
    vector of numbers, without dimensions, or an array with dimensions; or strings.
    (Numbers are integers; those in covariates make no difference to the code here.) *)
Inductive column := Fac (codes : list (option Z)) (levels : list string) | Num (values : list Z) (dims : list Z) | Chr (values : list string).

(** The data, with different names. *)
Definition rdata := list (string * column).
Definition lookup (data : rdata) (s : string) : option column :=
  match find (fun nv => String.eqb (fst nv) s) data with Some nv => Some (snd nv) | None => None end.
(** exists(s, where = data). *)
Definition exists_in (data : rdata) (s : string) : bool := match lookup data s with Some _ => true | None => false end.
(** data[[s]] <- x, for a name that is there. *)
Definition replace (data : rdata) (s : string) (x : column) : rdata :=
  map (fun nv => if String.eqb (fst nv) s then (fst nv, x) else nv) data.

(** as.numeric. *)
Definition as_numeric (x : column) : list (option Z) :=
  match x with Fac codes _ => codes | Num v _ => map Some v | Chr v => map (fun _ => None) v end.

(** as.character. *)
Definition show (z : Z) : string := NilZero.string_of_int (Z.to_int z).
Definition as_character (x : column) : list (option string) :=
  match x with
  | Fac codes levels => map (fun c => match c with Some k => nth_error levels (Z.to_nat (k - 1)) | None => None end) codes
  | Num v _ => map (fun z => Some (show z)) v
  | Chr v => map Some v
  end.

(** match(s, levels). *)
Fixpoint position (s : string) (levels : list string) : option Z :=
  match levels with
  | [] => None
  | t :: levels' => if String.eqb s t then Some 1%Z else match position s levels' with Some k => Some (k + 1)%Z | None => None end
  end.
Fixpoint duplicated (l : list string) : bool :=
  match l with [] => false | s :: l' => existsb (String.eqb s) l' || duplicated l' end.

(** factor(x, levels = levels); an error if a level occurs twice, or (not so in R,
    where it is dropped) if it is NA. *)
Definition factor (levels : column) (x : column) : outcome column :=
  ls <- mapM (fun s => match s with Some t => Ok t | None => Throw RuntimeError end) (as_character levels) ;;
  if duplicated ls then Throw RuntimeError
  else Ok (Fac (map (fun s => match s with Some t => position t ls | None => None end) (as_character x)) ls).

(** The values of an index: factor(levels, levels = levels), or numbers. *)
Inductive index := Levels (levels : list string) | Numbers (values : list Z).
Definition index_length (ix : index) : Z := match ix with Levels l => Z.of_nat (length l) | Numbers v => Z.of_nat (length v) end.

(** find_indices, R/indexing.R:28-41.  A subscript that is not a name ends here; in
    the code it does so in line 80, if it is in the expression. *)
Fixpoint find_indices (i : nat) (var : string) (x : rexpr) : outcome (list string) :=
  match x with
  | Const _ | Name _ => Ok []
  | Call xs =>
      let inner := (fix go (l : list rexpr) : outcome (list string) :=
                      match l with [] => Ok [] | y :: l' => a <- find_indices i var y ;; b <- go l' ;; Ok (a ++ b)%list end) xs in
      match xs with
      | h :: a :: rest =>
          if is_name h "[" && is_name a var then
            match nth_error rest (i - 1) with
            | Some (Name s) => Ok [s]
            | _ => Throw RuntimeError
            end
          else r <- inner ;; Ok (distinct r)
      | _ => r <- inner ;; Ok (distinct r)
      end
  end.

(** as.character of an expression: the names in it. *)
Definition character_of (x : rexpr) : list string :=
  match x with
  | Const _ => []
  | Name s => [s]
  | Call xs => flat_map (fun y => match y with Name s => [s] | _ => [] end) xs
  end.

(** find_vars_with_index, R/indexing.R:43-58. *)
Fixpoint find_vars_with_index (i : nat) (ind : string) (x : rexpr) : list string :=
  match x with
  | Const _ | Name _ => []
  | Call xs =>
      let inner := distinct ((fix go (l : list rexpr) : list string :=
                      match l with [] => [] | y :: l' => find_vars_with_index i ind y ++ go l' end) xs)%list in
      match xs with
      | h :: a :: rest =>
          if is_name h "[" && match nth_error rest (i - 1) with Some e => is_name e ind | None => false end
          then character_of a else inner
      | _ => inner
      end
  end.

(** find_dim_in_dir, R/utility.R:5-15. *)
Definition dims_of (x : column) : list Z := match x with Num _ dims => dims | _ => [] end.
Definition length_of (x : column) : nat := match x with Fac c _ => length c | Num v _ => length v | Chr v => length v end.
Definition find_dim_in_dir (i : nat) (x : column) : outcome Z :=
  let d := length (dims_of x) in
  if (d =? 0)%nat && (i =? 1)%nat then Ok (Z.of_nat (length_of x))
  else match nth_error (dims_of x) (i - 1) with Some n => Ok n | None => Throw RuntimeError end.

(** 1:n. *)
Definition colon (n : Z) : list Z := if (n =? 0)%Z then [1; 0]%Z else map Z.of_nat (seq 1 (Z.to_nat n)).

(** find_index_i, R/indexing.R:114-135.  index_i has no value if none was given to it. *)
Definition find_index_i (ind : string) (i : nat) (index_i : option index) (subform : rexpr) (data : rdata) : outcome index :=
  let vars := filter (exists_in data) (find_vars_with_index i ind subform) in
  let x_vars := flat_map (fun s => match lookup data s with Some x => [x] | None => [] end) vars in
  match index_i with
  | None => Throw RuntimeError
  | Some ix =>
      ns <- mapM (find_dim_in_dir i) x_vars ;;
      let levels_i_max := match ns with [] => index_length ix | n :: ns' => fold_left Z.max ns' n end in
      match ix with
      | Levels l => if (Z.of_nat (length l) =? levels_i_max)%Z then Ok ix else Throw RuntimeError
      | Numbers _ => Ok (Numbers (colon levels_i_max))
      end
  end.

Definition is_factor (x : column) : bool := match x with Fac _ _ => true | _ => false end.
Definition is_numeric (x : column) : bool := match x with Num _ _ => true | _ => false end.
Definition levels_of (x : column) : list string := match x with Fac _ l => l | _ => [] end.
Definition values_of (x : column) : list Z := match x with Num v _ => v | _ => [] end.

(** sort(unique(x)): by insertion. *)
Fixpoint insert_sorted (z : Z) (l : list Z) : list Z :=
  match l with
  | [] => [z]
  | y :: l' => if (z <? y)%Z then z :: l else if (z =? y)%Z then l else y :: insert_sorted z l'
  end.
Definition sort_unique (l : list Z) : list Z := fold_right insert_sorted [] l.

(** State of the loop in find_indices_subform: data, index_i, indices_subform. *)
Definition loop_state := (rdata * option index * list (string * index))%type.

(** R/indexing.R:75-109, for one i. *)
Definition one_direction (subvar : string) (subform subexpr : rexpr) (st : loop_state) (i : nat) : outcome loop_state :=
  let '(data, index_i, indices_subform) := st in
  indices_subexpr <- find_indices i subvar subexpr ;;
  indices_i <- mapM (fun s => match lookup data s with Some x => Ok x | None => Throw RuntimeError end) indices_subexpr ;;
  inds <- find_indices i subvar subform ;;
  match inds with
  | [ind] =>
      st1 <- match lookup data ind with
             | Some levels_i =>
                 fs <- mapM (factor levels_i) indices_i ;;
                 Ok (fold_left (fun d nx => replace d (fst nx) (snd nx)) (combine indices_subexpr fs) data, index_i)
             | None =>
                 if forallb is_factor indices_i then
                   let levels_i := match indices_i with x :: _ => levels_of x | [] => [] end in
                   if forallb (fun x => if list_eq_dec string_dec (levels_of x) levels_i then true else false) indices_i
                   then Ok (data, Some (Levels levels_i)) else Throw RuntimeError
                 else if forallb is_numeric indices_i then Ok (data, Some (Numbers (sort_unique (flat_map values_of indices_i))))
                 else Throw RuntimeError
             end ;;
      let '(data', index_i') := st1 in
      ix <- find_index_i ind i index_i' subform data' ;;
      Ok (data', index_i', indices_subform ++ [(ind, ix)])%list
  | _ => Throw RuntimeError
  end.

(** find_indices_subform, R/indexing.R:60-111.  A dimension that is not found is NULL,
    and the comparison stops. *)
Definition find_indices_subform (subvar : string) (subform subexpr : rexpr) (data : rdata) : outcome (rdata * list (string * index)) :=
  d <- find_dim_sub subvar None subexpr ;;
  d' <- find_dim_sub subvar None subform ;;
  match d, d' with
  | Some n, Some n' =>
      if Nat.eqb n' n then
        st <- foldM (one_direction subvar subform subexpr) (seq 1 n) (data, None, []) ;;
        let '(data', _, indices_subform) := st in Ok (data', indices_subform)
      else Throw RuntimeError
  | _, _ => Throw RuntimeError
  end.
