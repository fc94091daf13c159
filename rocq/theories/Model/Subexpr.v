(** R/modify_subexpr.R, R/model_frames.R and parts of R/subformula.R: expressions with
    a substituted variable, and their evaluation with a model frame in its place. *)
From Coq Require Import String List Reals Bool Arith ZArith.
From Verif Require Import Model.Base Model.Indexing.
Import ListNotations.
Local Open Scope string_scope.
Local Open Scope R_scope.

(** An R expression: a number, a name, or a call, whose first element is the function.
    (Other constants and pairlists are not modelled.) *)
Inductive rexpr := Const (x : R) | Name (s : string) | Call (xs : list rexpr).

(** The name [s]. *)
Definition is_name (x : rexpr) (s : string) : bool := match x with Name t => String.eqb t s | _ => false end.

Section Modify.
Variable subvar : string.

(** find_sub_status, R/modify_subexpr.R:1-15; a number ends in the stop() of line 13. *)
Fixpoint find_sub_status (x : rexpr) : outcome bool :=
  match x with
  | Const _ => Throw RuntimeError
  | Name s => Ok (String.eqb s subvar)
  | Call xs =>
      (fix go (ys : list rexpr) : outcome bool :=
         match ys with
         | [] => Ok false
         | y :: ys' => b <- find_sub_status y ;; c <- go ys' ;; Ok (b || c)
         end) xs
  end.

(** parse(text = paste(x[-c(1, 2)], collapse = "_")), line 34.  Only names can be
    pasted together to something that can be parsed again to one name. *)
Fixpoint join (names : list string) : string :=
  match names with
  | [] => ""
  | [s] => s
  | s :: names' => s ++ "_" ++ join names'
  end.
Fixpoint names_of (xs : list rexpr) : outcome (list string) :=
  match xs with
  | [] => Ok []
  | Name s :: xs' => r <- names_of xs' ;; Ok (s :: r)
  | _ :: _ => Throw RuntimeError
  end.

(** The function of a call with substituted variables is replaced by one for model
    frames, lines 21-50.  [ys] are the elements of the call after they have been
    modified themselves (line 51); the order makes no difference. *)
Definition modify_call (xs ys : list rexpr) : outcome (list rexpr) :=
  arg1sub <- match xs with _ :: a :: _ => find_sub_status a | _ => Ok false end ;;
  arg2sub <- match xs with _ :: _ :: b :: _ => find_sub_status b | _ => Ok false end ;;
  if arg1sub || arg2sub then
    match ys with
    | h :: a :: rest =>
        if is_name h "[" && arg1sub && negb arg2sub then
          if Nat.ltb 3 (length xs) then index <- names_of rest ;; Ok [Name "[fr"; a; Name (join index)]
          else Ok (Name "[fr" :: a :: rest)
        else if is_name h "+" then Ok (Name "+fr" :: a :: rest)
        else if is_name h "-" then Ok (Name "-fr" :: a :: rest)
        else if is_name h "*" then Ok (Name "*fr" :: a :: rest)
        else if is_name h "/" then Ok (Name "/fr" :: a :: rest)
        else Throw RuntimeError
    | _ => Throw RuntimeError
    end
  else Ok ys.

(** modify_subexpr, R/modify_subexpr.R:17-59. *)
Fixpoint modify_subexpr (x : rexpr) : outcome rexpr :=
  match x with
  | Const _ | Name _ => Ok x
  | Call xs =>
      ys <- (fix go (l : list rexpr) : outcome (list rexpr) :=
               match l with
               | [] => Ok []
               | y :: l' => y' <- modify_subexpr y ;; r <- go l' ;; Ok (y' :: r)
               end) xs ;;
      zs <- modify_call xs ys ;;
      Ok (Call zs)
  end.

(** extract_to_flatten, R/modify_subexpr.R:61-85, without dropping repetitions. *)
Fixpoint extract_to_flatten (x : rexpr) : outcome (list (list string)) :=
  match x with
  | Const _ | Name _ => Ok []
  | Call xs =>
      inner <- (fix go (l : list rexpr) : outcome (list (list string)) :=
                  match l with
                  | [] => Ok []
                  | y :: l' => a <- extract_to_flatten y ;; b <- go l' ;; Ok (a ++ b)%list
                  end) xs ;;
      match xs with
      | h :: a :: rest =>
          if is_name h "[" && Nat.ltb 3 (length xs) then
            s <- find_sub_status a ;;
            if s then to_flatten <- names_of rest ;; Ok (to_flatten :: inner) else Ok inner
          else Ok inner
      | _ => Ok inner
      end
  end.

(** find_dim_sub, R/indexing.R:2-26: the number of indices of the variable. *)
Fixpoint find_dim_sub (d : option nat) (x : rexpr) : outcome (option nat) :=
  match x with
  | Const _ | Name _ => Ok d
  | Call xs =>
      d1 <- match xs with
            | h :: a :: rest =>
                if is_name h "[" && is_name a subvar then
                  match d with
                  | Some k => if Nat.eqb k (length rest) then Ok d else Throw RuntimeError
                  | None => Ok (Some (length rest))
                  end
                else Ok d
            | _ => Ok d
            end ;;
      (fix go (d : option nat) (l : list rexpr) : outcome (option nat) :=
         match l with
         | [] => Ok d
         | y :: l' => d' <- find_dim_sub d y ;; go d' l'
         end) d1 xs
  end.

(** find_vars, R/subformula.R:70-85, as a list without repetitions. *)
Fixpoint distinct (l : list string) : list string :=
  match l with
  | [] => []
  | x :: l' => x :: filter (fun y => negb (String.eqb x y)) (distinct l')
  end.
End Modify.

Fixpoint find_vars (vars : list string) (x : rexpr) : list string :=
  match x with
  | Const _ => []
  | Name s => if existsb (String.eqb s) vars then [s] else []
  | Call xs =>
      distinct ((fix go (l : list rexpr) : list string :=
                   match l with [] => [] | y :: l' => find_vars vars y ++ go l' end) xs)%list
  end.

(** The checks of match_subform_subexpr, R/subformula.R:107-113; any() makes TRUE of a
    vector with an element that is not zero, and TRUE and FALSE are compared as 1 and 0. *)
Definition any (n : list nat) : nat := if existsb (fun k => negb (Nat.eqb k 0)) n then 1 else 0.
Definition check_subexprs (subvars : list string) (subexprs : list rexpr) : outcome unit :=
  let n_subvars := map (fun e => length (find_vars subvars e)) subexprs in
  if Nat.ltb 1 (any n_subvars) then Throw RuntimeError
  else if Nat.eqb (any n_subvars) 0 then Throw RuntimeError
  else Ok tt.

(** add_subexpr, R/subformula.R:87-99: the expression whose first variable is this
    one; NULL, with a warning, if there is none.  An expression without variables makes
    vapply stop, as the comparison with NULL has no value. *)
Definition add_subexpr (subexprs : list rexpr) (which_subvars : list (list string)) (subvar : string) : outcome (option rexpr) :=
  firsts <- mapM (fun w => match w with [] => Throw RuntimeError | x :: _ => Ok (String.eqb x subvar) end) which_subvars ;;
  match filter (fun fe => fst fe) (combine firsts subexprs) with
  | [] => Ok None
  | [fe] => Ok (Some (snd fe))
  | _ => Throw RuntimeError
  end.

(** match_subform_subexpr, R/subformula.R:101-115, given the variables of the
    subformulas. *)
Definition match_subform_subexpr (subvars : list string) (subexprs : list rexpr) : outcome (list (option rexpr)) :=
  _ <- check_subexprs subvars subexprs ;;
  mapM (add_subexpr subexprs (map (find_vars subvars) subexprs)) subvars.

(** Model frames: the matrix X by rows, and Zt, if there are random effects, by
    columns, with the numbers of columns of X and of rows of Zt. *)
Record mframe := mkMframe { mf_p : nat; mf_X : list (list R); mf_q : nat; mf_Zt : option (list (list R)) }.

(** Values: vectors of numbers; factors, by their codes; model frames; and arrays
    as their elements and a function from subscripts to elements, which do not occur in
    the code but in the meaning of an expression. *)
Inductive value := Vec (v : list R) | Codes (i : list Z) | Frame (f : mframe) | Array (v : list R) (at_ : list Z -> outcome R).

(** as.numeric(i) as a subscript: truncated.  (Zero and negative subscripts, and in
    vectors subscripts that are too large, are errors here.) *)
Definition as_index (v : value) : outcome (list Z) :=
  match v with Vec x => Ok (map Int_part x) | Codes i => Ok i | _ => Throw RuntimeError end.
Definition pick {A} (l : list A) (i : Z) : outcome A := if (i <? 1)%Z then Throw RuntimeError else vec_at l (Z.to_nat (i - 1)).
Definition picks {A} (l : list A) (is : list Z) : outcome (list A) := mapM (pick l) is.

(** Arithmetic with recycling. *)
Definition recycle (op : R -> R -> R) (a b : list R) : list R :=
  match a, b with
  | [], _ | _, [] => []
  | _, _ => map (fun k => op (nth (k mod length a) a 0) (nth (k mod length b) b 0)) (seq 0 (Nat.max (length a) (length b)))
  end.

(** A matrix, given by [cols] columns of [rows] elements in [at_], times a vector,
    which is recycled along the columns.  A vector that is longer than the matrix is
    an error of R; so is here an empty one. *)
Definition recycled (a : list R) (rows i j : nat) : R := nth ((i + rows * j) mod length a) a 0.
Definition recyclable (a : list R) (rows cols : nat) : bool :=
  Nat.eqb (length a) 1 || (Nat.leb 1 (length a) && Nat.leb (length a) (rows * cols)).

(** `*fr`, R/model_frames.R:115-130 (for a frame and a vector). *)
Definition scale_X (X : list (list R)) (a : list R) : list (list R) :=
  map (fun ir => map (fun jx => snd jx * recycled a (length X) (fst ir) (fst jx)) (combine (seq 0 (length (snd ir))) (snd ir)))
      (combine (seq 0 (length X)) X).
Definition scale_Zt (q : nat) (Zt : list (list R)) (a : list R) : list (list R) :=
  map (fun jc => map (fun ix => snd ix * recycled a q (fst ix) (fst jc)) (combine (seq 0 (length (snd jc))) (snd jc)))
      (combine (seq 0 (length Zt)) Zt).
Definition times_fr (f : mframe) (a : list R) : outcome mframe :=
  if recyclable a (length (mf_X f)) (mf_p f) then
    match mf_Zt f with
    | None => Ok (mkMframe (mf_p f) (scale_X (mf_X f) a) (mf_q f) None)
    | Some Zt =>
        if recyclable a (mf_q f) (length Zt) then
          Ok (mkMframe (mf_p f) (scale_X (mf_X f) a) (mf_q f) (Some (scale_Zt (mf_q f) Zt a)))
        else Throw RuntimeError
    end
  else Throw RuntimeError.

(** `/fr`, R/model_frames.R:133-138.  (Divisors are not zero.) *)
Definition over_fr (f : mframe) (a : list R) : outcome mframe := times_fr f (map (fun x => 1 / x) a).

(** `+fr`, R/model_frames.R:141-167. *)
Definition add_rows (a b : list (list R)) : list (list R) := map (fun xy => map (fun uv => fst uv + snd uv) (combine (fst xy) (snd xy))) (combine a b).
Definition plus_fr (f g : mframe) : outcome mframe :=
  match mf_Zt f, mf_Zt g with
  | None, None =>
      if Nat.eqb (length (mf_X f)) (length (mf_X g)) && Nat.eqb (mf_p f) (mf_p g) then
        Ok (mkMframe (mf_p f) (add_rows (mf_X f) (mf_X g)) (mf_q f) None)
      else Throw RuntimeError
  | Some Z, Some W =>
      if Nat.eqb (length (mf_X f)) (length (mf_X g)) && Nat.eqb (mf_p f) (mf_p g) then
        if Nat.eqb (length Z) (length W) && Nat.eqb (mf_q f) (mf_q g) then
          Ok (mkMframe (mf_p f) (add_rows (mf_X f) (mf_X g)) (mf_q f) (Some (add_rows Z W)))
        else Throw RuntimeError
      else Throw RuntimeError
  | _, _ => Throw RuntimeError
  end.

(** `-fr`, R/model_frames.R:170-177. *)
Definition minus_fr (f g : mframe) : outcome mframe := m <- times_fr g [-1] ;; plus_fr f m.

(** `[fr`, R/model_frames.R:100-111. *)
Definition index_fr (f : mframe) (is : list Z) : outcome mframe :=
  X <- picks (mf_X f) is ;;
  match mf_Zt f with
  | None => Ok (mkMframe (mf_p f) X (mf_q f) None)
  | Some Zt => Z <- picks Zt is ;; Ok (mkMframe (mf_p f) X (mf_q f) (Some Z))
  end.

(** R's own arithmetic; an array is used as the vector of its elements. *)
Definition as_vec (v : value) : outcome (list R) :=
  match v with Vec x | Array x _ => Ok x | _ => Throw RuntimeError end.
Definition arith (op : R -> R -> R) (u v : value) : outcome value :=
  a <- as_vec u ;; b <- as_vec v ;; Ok (Vec (recycle op a b)).
Definition arith1 (op : R -> R) (u : value) : outcome value := a <- as_vec u ;; Ok (Vec (map op a)).

(** x[i], and for an array x[i, j, ...]: element by element. *)
Definition tuples (k : nat) (is : list (list Z)) : list (list Z) := map (fun j => map (fun i => nth j i 0%Z) is) (seq 0 k).
Definition same_length (k : nat) (is : list (list Z)) : bool := forallb (fun i => Nat.eqb (length i) k) is.
Definition subscript (u : value) (is : list (list Z)) : outcome value :=
  match u, is with
  | Vec x, [i] => y <- picks x i ;; Ok (Vec y)
  | Array _ at_, i :: _ =>
      if same_length (length i) is then y <- mapM at_ (tuples (length i) is) ;; Ok (Vec y) else Throw RuntimeError
  | _, _ => Throw RuntimeError
  end.

Section Eval.
(** Other functions, of vectors of numbers. *)
Variable other : string -> list (list R) -> outcome (list R).

Definition apply (f : string) (args : list value) : outcome value :=
  if String.eqb f "+" then match args with [a; b] => arith Rplus a b | [a] => arith1 (fun x => x) a | _ => Throw RuntimeError end
  else if String.eqb f "-" then match args with [a; b] => arith Rminus a b | [a] => arith1 Ropp a | _ => Throw RuntimeError end
  else if String.eqb f "*" then match args with [a; b] => arith Rmult a b | _ => Throw RuntimeError end
  else if String.eqb f "/" then match args with [a; b] => arith Rdiv a b | _ => Throw RuntimeError end
  else if String.eqb f "(" then match args with [a] => Ok a | _ => Throw RuntimeError end
  else if String.eqb f "[" then match args with u :: is => js <- mapM as_index is ;; subscript u js | _ => Throw RuntimeError end
  else if String.eqb f "+fr" then match args with [Frame a; Frame b] => r <- plus_fr a b ;; Ok (Frame r) | _ => Throw RuntimeError end
  else if String.eqb f "-fr" then match args with [Frame a; Frame b] => r <- minus_fr a b ;; Ok (Frame r) | _ => Throw RuntimeError end
  else if String.eqb f "*fr" then
    match args with [Frame a; Vec b] | [Vec b; Frame a] => r <- times_fr a b ;; Ok (Frame r) | _ => Throw RuntimeError end
  else if String.eqb f "/fr" then match args with [Frame a; Vec b] => r <- over_fr a b ;; Ok (Frame r) | _ => Throw RuntimeError end
  else if String.eqb f "[fr" then match args with [Frame a; i] => js <- as_index i ;; r <- index_fr a js ;; Ok (Frame r) | _ => Throw RuntimeError end
  else a <- mapM as_vec args ;; r <- other f a ;; Ok (Vec r).

(** eval(x, envir): names are looked up in a list, the first one counts. *)
Definition env := list (string * value).
Definition get (e : env) (s : string) : outcome value :=
  match find (fun nv => String.eqb (fst nv) s) e with Some nv => Ok (snd nv) | None => Throw RuntimeError end.
Fixpoint eval (e : env) (x : rexpr) : outcome value :=
  match x with
  | Const c => Ok (Vec [c])
  | Name s => get e s
  | Call (Name f :: args) =>
      vs <- (fix go (l : list rexpr) : outcome (list value) :=
               match l with
               | [] => Ok []
               | y :: l' => v <- eval e y ;; r <- go l' ;; Ok (v :: r)
               end) args ;;
      apply f vs
  | Call _ => Throw RuntimeError
  end.

(** The flat index of a list of variables, R/subformula.R:144-148 and
    R/indexing.R:183-186. *)
Definition flat_var (data : env) (dims : list Z) (names : list string) : outcome (string * value) :=
  is <- mapM (fun s => v <- get data s ;; as_index v) names ;;
  match is with
  | i :: _ => if same_length (length i) is then Ok (join names, Vec (map IZR (flatten_vars is dims))) else Throw RuntimeError
  | [] => Throw RuntimeError
  end.

(** The second half of parse_sub, R/subformula.R:140-153: [base] is the frame of the
    subformula, dims the numbers of levels of the indices. *)
Definition parse_sub (subvar : string) (base : mframe) (dims : list Z) (data : env) (subexpr : rexpr) : outcome value :=
  subexpr_mod <- modify_subexpr subvar subexpr ;;
  to_flatten <- extract_to_flatten subvar subexpr ;;
  subset_vars_flat <- mapM (flat_var data dims) to_flatten ;;
  eval ((subvar, Frame base) :: subset_vars_flat ++ data)%list subexpr_mod.
End Eval.
