(** Quadrature rules as used in C26. *)
From Coq Require Import List Reals.
From Verif Require Import Model.Base Model.Quadrature.
Import ListNotations.
Local Open Scope R_scope.

(** One weight per node, none negative and not all zero. *)
Definition weighted (r : rule) : Prop :=
  length (qr_nodes r) = length (qr_weights r) /\
  Forall (fun w => 0 <= w) (qr_weights r) /\ Exists (fun w => 0 < w) (qr_weights r).
