(** Elements of arrays, and the part of an array with chosen indices in one direction,
    independent of the code. *)
From Coq Require Import List ZArith.
From Verif Require Import Spec.IndexSpec.
Import ListNotations.
Local Open Scope Z_scope.

(** [v] is the element with indices t of the array with these dimensions and data: the data
    belong to the rows of expand.grid in order. *)
Definition element_is {A} (dims : list Z) (data : list A) (t : list Z) (v : A) : Prop :=
  exists k, nth_error (grid dims) k = Some t /\ nth_error data k = Some v.
Definition is_array {A} (dims : list Z) (data : list A) : Prop := length data = length (grid dims).

(** The tuple t with another number in position i, from 0. *)
Definition put (i : nat) (z : Z) (t : list Z) : list Z := firstn i t ++ z :: skipn (S i) t.
