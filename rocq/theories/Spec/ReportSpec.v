(** The parameters of the random effects and their names. *)
From Coq Require Import String List Arith Reals.
Import ListNotations.
Local Open Scope string_scope.
Notation length := List.length.

(** The lower triangle of a matrix with c rows, by columns. *)
Definition triangle (c : nat) : list (nat * nat) := flat_map (fun j => map (fun i => (i, j)) (seq j (c - j))) (seq 0 c).
(** A term has a group and components; its parameters are the entries of the lower triangle of
    the factor of its covariance matrix, each with the components of its row and column.  An
    entry on the diagonal is the parameter of one component. *)
Definition term := (string * list string)%type.
Definition parameters_of (t : term) : list (string * string * string) :=
  map (fun ij => (fst t, nth (fst ij) (snd t) "", nth (snd ij) (snd t) "")) (triangle (length (snd t))).
Definition parameters (terms : list term) : list (string * string * string) := flat_map parameters_of terms.
(** The labels that are printed: the groups and all the components. *)
Definition groups_of (terms : list term) : list string := map fst terms.
Definition components_of (terms : list term) : list string := flat_map snd terms.
(** Only random intercepts or single slopes. *)
Definition scalar (t : term) : Prop := length (snd t) = 1%nat.

(** The different groups, in the order in which they are first seen: the factors of lme4. *)
Fixpoint first_seen (l : list string) : list string :=
  match l with [] => [] | x :: l' => x :: filter (fun y => negb (String.eqb x y)) (first_seen l') end.

(** The labels of a table, read as those of parameters of one component. *)
Definition labels {A} (rows : list (string * string * A)) : list (string * string * string) := map (fun r => (fst (fst r), snd (fst r), snd (fst r))) rows.
