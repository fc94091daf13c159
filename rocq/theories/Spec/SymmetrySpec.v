(** Symmetry about 0, independent of the code. *)
From Coq Require Import List Reals Arith.
From Verif Require Import Model.Base Model.SparseGrid Spec.MatrixSpec Spec.FramesSpec.
Import ListNotations.
Local Open Scope R_scope.

(** Knots and functions of each level are mirror images of each other. *)
Definition mirrored (k : nat) (x : nat -> nat -> R) (phi : nat -> nat -> R -> R) : Prop :=
  forall l j, (l <= k)%nat -> (j < 2 ^ l)%nat ->
    x l (2 ^ l - 1 - j)%nat = - x l j /\ forall y, phi l (2 ^ l - 1 - j)%nat y = phi l j (- y).

(** A matrix with the signs of rows and columns changed. *)
Definition flip_matrix (s : list R) (A : list (list R)) : list (list R) := map (fun p => map (Rmult (fst p)) (flip s (snd p))) (combine s A).
