(** Sparse grids without reference to the code. *)
From Coq Require Import List Arith.
From Verif Require Import Model.Base Model.Point.
Import ListNotations.

(** Pascal's triangle. *)
Fixpoint binom (n k : nat) : nat :=
  match n, k with
  | _, 0 => 1
  | 0, S _ => 0
  | S n', S k' => binom n' k' + binom n' (S k')
  end.

(** A point of the sparse grid of dimension [d] and level [k]. *)
Definition grid_point (d k : nat) (levels positions : list nat) : Prop :=
  length levels = d /\ length positions = d /\ list_sum levels <= k /\
  Forall2 (fun l p => p < 2 ^ l) levels positions.

(** Advance [n] times. *)
Fixpoint advances (n : nat) (p : point) : outcome point :=
  match n with
  | O => Ok p
  | S n' => q <- advances n' p ;; advance q
  end.

Definition on_point (m : outcome point) (P : point -> Prop) : Prop :=
  match m with Ok p => P p | _ => False end.
