(** R/utility.R: selecting in one dimension of an array. *)
From Coq Require Import String Ascii List ZArith Bool Arith.
From Verif Require Import Model.Base.
Import ListNotations.
Local Open Scope string_scope.

(** The text of the call, R/utility.R:26-37.  paste() puts an empty string where an argument
    is character(0). *)
Definition commas (k : nat) : string := String.concat " " (repeat "," k).
Definition commas_before (i : nat) : string := if Nat.ltb 1 i then commas (i - 1) else "".
Definition commas_after (i d : nat) : string := if Nat.ltb i d then commas (d - i) else "".
Definition expr_text (i d : nat) : string :=
  String.concat " " ["x["; commas_before i; "indices"; commas_after i d; ", drop = FALSE]"].

(** parse(text = ), line 38, for calls x[...] without further brackets: the texts between the
    commas. *)
Fixpoint scan (acc : string) (s : string) : option (list string) :=
  match s with
  | "" => None
  | String c s' =>
      if Ascii.eqb c "]" then match s' with "" => Some [acc] | _ => None end
      else if Ascii.eqb c "," then option_map (cons acc) (scan "" s')
      else scan (acc ++ String c "") s'
  end.
Fixpoint trim_left (s : string) : string :=
  match s with String c s' => if Ascii.eqb c " " then trim_left s' else s | "" => "" end.
Fixpoint trim_right (s : string) : string :=
  match s with
  | "" => ""
  | String c s' => match trim_right s' with "" => if Ascii.eqb c " " then "" else String c "" | t => String c t end
  end.
Inductive arg := Missing | Indices | NoDrop.
Definition arg_of (s : string) : outcome arg :=
  let w := trim_left (trim_right s) in
  if String.eqb w "" then Ok Missing
  else if String.eqb w "indices" then Ok Indices
  else if String.eqb w "drop = FALSE" then Ok NoDrop
  else Throw RuntimeError.
Definition parse_text (s : string) : outcome (list arg) :=
  match s with
  | String "x" (String "[" s') => match scan "" s' with Some l => mapM arg_of l | None => Throw RuntimeError end
  | _ => Throw RuntimeError
  end.

(** A vector (no dimensions) or an array: its elements with the first index varying
    fastest. *)
Record rarray A := mkArray { ar_dims : list Z; ar_data : list A }.
Arguments mkArray {A} _ _.
Arguments ar_dims {A} _.
Arguments ar_data {A} _.

Section Subset.
Context {A : Type}.
Variable na : A.

(** x[k] for positive numbers k; beyond the end it is NA.  (Zero and negative numbers, which
    R leaves out or takes as exclusions, are not modelled: they are errors here, and the
    theorems are about positive numbers only.) *)
Definition vector_subset (x : list A) (ks : list Z) : outcome (list A) :=
  if forallb (fun k => Z.leb 1 k) ks then Ok (map (fun k => nth (Z.to_nat (k - 1)) x na) ks) else Throw RuntimeError.

(** The index vectors in all the directions: all the indices if the argument is missing. *)
Definition chosen (indices : list Z) (d : Z) (a : arg) : list Z :=
  match a with Indices => indices | _ => map Z.of_nat (seq 1 (Z.to_nat d)) end.
Fixpoint combos (rows : list (list Z)) : list (list Z) :=
  match rows with
  | [] => [[]]
  | r :: rows' => concat (map (fun t => map (fun i => i :: t) r) (combos rows'))
  end.
(** Where an element is stored. *)
Fixpoint offset (dims t : list Z) : Z :=
  match dims, t with
  | d :: dims', i :: t' => (i - 1) + d * offset dims' t'
  | _, _ => 0
  end%Z.
(** x[..., drop = FALSE] with one argument for each dimension; a subscript that is out of
    bounds is an error. *)
Definition array_subset (x : rarray A) (indices : list Z) (args : list arg) : outcome (rarray A) :=
  let rows := map (fun da => chosen indices (fst da) (snd da)) (combine (ar_dims x) args) in
  if forallb (fun dr => forallb (fun k => Z.leb 1 k && Z.leb k (fst dr)) (snd dr)) (combine (ar_dims x) rows) then
    Ok (mkArray (map (fun r => Z.of_nat (length r)) rows) (map (fun t => nth (Z.to_nat (offset (ar_dims x) t)) (ar_data x) na) (combos rows)))
  else Throw RuntimeError.

(** Without drop = FALSE the dimensions of size 1 are taken away, all of them if at most one
    other is left. *)
Definition drop_dims (dims : list Z) : list Z :=
  let l := filter (fun d => negb (Z.eqb d 1)) dims in
  if Nat.eqb (length l) (length dims) then dims else if Nat.leb (length l) 1 then [] else l.

(** The evaluation of the call, line 38.  R takes a single subscript as that of a vector, so
    that it is not checked against the dimension; with drop = FALSE the result of it is an
    array with one dimension if x is one.  Another number of subscripts than that of the
    dimensions is an error. *)
Definition is_index (a : arg) : bool := match a with NoDrop => false | _ => true end.
Definition eval_call (x : rarray A) (indices : list Z) (args : list arg) : outcome (rarray A) :=
  let drop := forallb is_index args in
  match filter is_index args with
  | [a] =>
      let ks := chosen indices (Z.of_nat (length (ar_data x))) a in
      v <- vector_subset (ar_data x) ks ;;
      Ok (mkArray (if Nat.eqb (length (ar_dims x)) 1 && negb (drop && Nat.leb (length ks) 1) then [Z.of_nat (length ks)] else []) v)
  | subs =>
      if Nat.eqb (length subs) (length (ar_dims x)) then
        y <- array_subset x indices subs ;; Ok (if drop then mkArray (drop_dims (ar_dims y)) (ar_data y) else y)
      else Throw RuntimeError
  end.

(** subset_dim, R/utility.R:17-39. *)
Definition subset_dim (x : rarray A) (i : nat) (indices : list Z) : outcome (rarray A) :=
  let d := length (ar_dims x) in
  if Nat.eqb d 0 && Nat.eqb i 1 then v <- vector_subset (ar_data x) indices ;; Ok (mkArray [] v)
  else if Nat.ltb d i then Throw RuntimeError
  else args <- parse_text (expr_text i d) ;; eval_call x indices args.
End Subset.
