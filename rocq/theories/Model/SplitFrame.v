(** R/splitframe.R: splitting a model frame into factors.  Items and observations
    are numbered from 1, as in R, until they are passed to the C++ code. *)
From Coq Require Import List ZArith Bool Arith.
From Verif Require Import Model.Base Model.Family Model.GLMM.
Import ListNotations.

(** A dgCMatrix (package Matrix): its number of rows and, for each column, the
    stored entries (row, value), rows numbered from 0 as in the slots of the class. *)
Record csc (A : Type) := mkCsc { cs_rows : nat; cs_cols : list (list (nat * A)) }.
Arguments mkCsc {A} _ _.
Arguments cs_rows {A} _.
Arguments cs_cols {A} _.

(** is.element(x, l). *)
Definition is_element (x : nat) (l : list nat) : bool := existsb (Nat.eqb x) l.

(** unique(l): the first occurrences. *)
Fixpoint unique {A} (eqb : A -> A -> bool) (l : list A) : list A :=
  match l with
  | [] => []
  | x :: l' => x :: filter (fun y => negb (eqb x y)) (unique eqb l')
  end.

(** setdiff(x, y). *)
Definition setdiff (x y : list nat) : list nat := unique Nat.eqb (filter (fun v => negb (is_element v y)) x).

(** identical() on vectors of whole numbers. *)
Fixpoint identical (a b : list nat) : bool :=
  match a, b with
  | [], [] => true
  | x :: a', y :: b' => Nat.eqb x y && identical a' b'
  | _, _ => false
  end.

(** 1:n. *)
Definition one_to (n : nat) : list nat := match n with O => [1; 0] | S _ => seq 1 n end.

Section Active.
Context {A : Type}.

(** The rows stored in column j of Lambdat %*% Zt (line 5).  The product of two
    sparse matrices stores every place that a pair of stored entries contributes to,
    whatever its value, with the rows of each column in increasing order. *)
Definition product_rows (Lambdat : csc A) (col : list (nat * A)) : list nat :=
  filter (fun i => existsb (fun e => existsb (fun l => Nat.eqb (fst l) i) (nth (fst e) (cs_cols Lambdat) [])) col)
         (seq 0 (cs_rows Lambdat)).

(** The slots i and j of the triplet form, both plus 1, lines 6-7. *)
Definition triplets (Lambdat Zt : csc A) : list (nat * nat) :=
  concat (map (fun jc => map (fun i => (i + 1, fst jc + 1)) (product_rows Lambdat (snd jc)))
              (combine (seq 0 (length (cs_cols Zt))) (cs_cols Zt))).

(** The levels of factor(j): its distinct values in increasing order. *)
Definition levels (js : list nat) : list nat :=
  filter (fun l => is_element l js) (seq 0 (S (list_max js))).

(** find_active, R/splitframe.R:2-8: tapply(i + 1, j + 1, c) is the list, over the
    levels of j, of the values of i with that j. *)
Definition find_active (Lambdat Zt : csc A) : list (list nat) :=
  let t := triplets Lambdat Zt in
  map (fun l => map fst (filter (fun ij => Nat.eqb (snd ij) l) t)) (levels (map snd t)).
End Active.

(** act[o] inside act[obs_rem], line 11: the element in position o, NULL if there is
    none (o is never 0 when this is evaluated). *)
Definition active_at (act : list (list nat)) (o : nat) : list nat :=
  match nth_error act (o - 1) with Some items => items | None => [] end.

(** add_obs_C, R/splitframe.R:10-15. *)
Definition add_obs_C (C : list nat) (act : list (list nat)) (obs_rem : list nat) : list nat * list nat :=
  (C, filter (fun o => forallb (fun i => is_element i C) (active_at act o)) obs_rem).

(** add_obs, R/splitframe.R:17-28: the loop, then the test.  [$obs] in line 22 is
    the component obs_C, by partial matching.  stop() is RuntimeError. *)
Fixpoint add_obs_loop (cliques act : list (list nat)) (obs_rem : list nat)
  : list (list nat * list nat) * list nat :=
  match cliques with
  | [] => ([], obs_rem)
  | C :: cliques' =>
      let e := add_obs_C C act obs_rem in
      let '(ext, rem) := add_obs_loop cliques' act (setdiff obs_rem (snd e)) in
      (e :: ext, rem)
  end.

Definition add_obs (cliques act : list (list nat)) (obs : list nat) : outcome (list (list nat * list nat)) :=
  let '(ext, rem) := add_obs_loop cliques act obs in
  if Nat.eqb (length rem) 0 then Ok ext else Throw RuntimeError.

(** The position of x in l, from 0. *)
Fixpoint position (x : nat) (l : list nat) : nat :=
  match l with
  | [] => 0
  | y :: l' => if Nat.eqb x y then 0 else S (position x l')
  end.

(** M[C, C, drop = FALSE] for C in increasing order (as the sets of [find_active]
    are), so that the order of the entries of a column is kept. *)
Definition sub_csc {A} (m : csc A) (C : list nat) : outcome (csc A) :=
  cols <- mapM (fun c => if Nat.ltb (c - 1) (cs_rows m) then vec_at (cs_cols m) (c - 1) else Throw OutOfRange) C ;;
  Ok (mkCsc (length C)
    (map (fun col => map (fun e => (position (fst e + 1) C, snd e)) (filter (fun e => is_element (fst e + 1) C) col)) cols)).

(** The slot x of a matrix. *)
Definition slot_x {A} (m : csc A) : list A := concat (map (map snd) (cs_cols m)).

(** M@x <- x, lines 36-37; the lengths have to agree. *)
Fixpoint fill_x {A B} (cols : list (list (nat * A))) (x : list B) : list (list (nat * B)) :=
  match cols with
  | [] => []
  | col :: cols' => combine (map fst col) (firstn (length col) x) :: fill_x cols' (skipn (length col) x)
  end.
Definition set_x {A B} (m : csc A) (x : list B) : outcome (csc B) :=
  if Nat.eqb (length x) (length (slot_x m)) then Ok (mkCsc (cs_rows m) (fill_x (cs_cols m) x)) else Throw RuntimeError.

Section SplitFrame.
Context (F : num).

(** model.response(modfr$fr): a vector, or a factor given by its codes, which count
    from 1.  (For a response with two columns, line 55, see Model/TwoColumn.v.) *)
Inductive response := Numeric (y : vec F) | Factor (codes : list nat).

(** The parts of a model frame that are used here; [fr_numFixed] is ncol(X). *)
Record frame := mkFrame {
  fr_X : mat F;
  fr_numFixed : nat;
  fr_Zt : csc F;
  fr_Lambdat : csc F;
  fr_Lind : list Z;
  fr_response : response;
  fr_weights : option (vec F)
}.

(** resp != levels(resp)[1L], lines 39-42; TRUE and FALSE become 1 and 0 when passed
    to C++. *)
Definition response_vector (r : response) : vec F :=
  match r with
  | Numeric y => y
  | Factor codes => map (fun c => if Nat.eqb c 1 then nZ F 0 else nZ F 1) codes
  end.

(** The element in row i and column j (numbered from 1) of a sparse matrix. *)
Definition csc_at (m : csc F) (i j : nat) : outcome F :=
  if Nat.ltb (i - 1) (cs_rows m) then
    col <- vec_at (cs_cols m) (j - 1) ;;
    Ok (nsum F (map snd (filter (fun e => Nat.eqb (fst e) (i - 1)) col)))
  else Throw OutOfRange.

(** The subvector x[obs] (out of bounds, where R gives NA, is an error here). *)
Definition at_obs {A} (x : list A) (obs : list nat) : outcome (list A) := mapM (fun o => vec_at x (o - 1)) obs.

(** find_local_term, R/splitframe.R:30-60, with the items of line 71. *)
Definition find_local_term (e : list nat * list nat) (fr : frame) : outcome (glmm_data F) :=
  let '(C, obs_C) := e in
  X_C <- at_obs (fr_X fr) obs_C ;;
  Zt_C <- mapM (fun i => mapM (csc_at (fr_Zt fr) i) obs_C) C ;;
  Lambdat_C <- sub_csc (fr_Lambdat fr) C ;;
  Lind_mat <- set_x (fr_Lambdat fr) (fr_Lind fr) ;;
  Lind_C <- sub_csc Lind_mat C ;;
  weights_C <- match fr_weights fr with
               | None => Ok (repeat (nZ F 1) (length obs_C))
               | Some w => at_obs w obs_C
               end ;;
  resp_C <- at_obs (response_vector (fr_response fr)) obs_C ;;
  Ok (mkData F (map (fun i => (Z.of_nat i - 1)%Z) C) X_C (fr_numFixed fr) Zt_C (length obs_C)
        (mkSparse F (cs_rows Lambdat_C) (cs_cols Lambdat_C))
        (map (fun l => (l - 1)%Z) (slot_x Lind_C)) resp_C weights_C).

(** The factors: of observations, or normal with a mean and a precision. *)
Inductive term := GLMMTerm (d : glmm_data F) | NormalTerm (items : list Z) (mean : vec F) (precision : mat F).

(** find_factorization_terms, R/splitframe.R:62-86. *)
Definition find_factorization_terms (fr : frame) : outcome (list term) :=
  let act := find_active (fr_Lambdat fr) (fr_Zt fr) in
  let cliques := unique identical act in
  let n_obs := length (cs_cols (fr_Zt fr)) in
  let n_re := cs_rows (fr_Zt fr) in
  cliques_ext <- add_obs cliques act (one_to n_obs) ;;
  ds <- mapM (fun e => find_local_term e fr) cliques_ext ;;
  Ok (map GLMMTerm ds ++ map (fun i => NormalTerm [(Z.of_nat i - 1)%Z] [nZ F 0] [[nZ F 1]]) (seq 1 n_re)).

End SplitFrame.
