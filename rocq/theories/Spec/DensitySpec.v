(** Integrals over d-dimensional space, determinants, positive definite matrices. *)
From Coq Require Import List Reals Arith.
From Coquelicot Require Import Coquelicot.
From Verif Require Import Spec.GLMMSpec Spec.MatrixSpec Spec.HermiteSpec.
Import ListNotations.
Local Open Scope R_scope.

(** The integral of [g] over all vectors with d components exists, as an iterated
    integral with the last component innermost, and is [v]. *)
Fixpoint integral_over (d : nat) (g : list R -> R) (v : R) : Prop :=
  match d with
  | O => g [] = v
  | S d' => exists h, (forall x, length x = d' -> integral (fun t => g (x ++ [t])) (h x)) /\ integral_over d' h v
  end.

(** What is expected of a routine for determinants: adding a multiple of a row to
    another row changes nothing, and for a lower triangular matrix the result is the
    product of the diagonal. *)
Fixpoint prodR (d : nat) (f : nat -> R) : R := match d with O => 1 | S d' => prodR d' f * f d' end.
Record determinants (d : nat) (determinant : list (list R) -> R) : Prop := {
  de_row : forall A B i j c, square d A -> square d B -> (i < d)%nat -> (j < d)%nat -> i <> j ->
    (forall k l, (k < d)%nat -> (l < d)%nat ->
       entry B k l = if Nat.eqb k i then entry A i l + c * entry A j l else entry A k l) ->
    determinant B = determinant A;
  de_triangular : forall A, square d A ->
    (forall i j, (i < j)%nat -> (j < d)%nat -> entry A i j = 0) ->
    determinant A = prodR d (fun i => entry A i i)
}.

(** Positive definite. *)
Definition positive (d : nat) (A : list (list R)) : Prop :=
  forall x, length x = d -> (exists i, (i < d)%nat /\ nth i x 0 <> 0) -> 0 < quad d A (repeat 0 d) x.
