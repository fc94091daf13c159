(** Laplace's approximation, independent of the code. *)
From Coq Require Import List Reals Arith.
From Verif Require Import Spec.GLMMSpec Spec.MatrixSpec.
Import ListNotations.
Local Open Scope R_scope.

(** The determinant by Gaussian elimination: the first row is used to clear the
    first column. *)
Fixpoint det (n : nat) (P : nat -> nat -> R) : R :=
  match n with
  | O => 1
  | S m => P 0%nat 0%nat * det m (fun i j => P (S i) (S j) - P (S i) 0%nat * P 0%nat (S j) / P 0%nat 0%nat)
  end.

Definition positive_definite (d : nat) (P : list (list R)) : Prop :=
  forall v, length v = d -> (exists i, (i < d)%nat /\ nth i v 0 <> 0) -> 0 < quad d P (repeat 0 d) v.

(** The logarithm of the integral of exp f by Laplace's method, if m is the mode
    and P minus the Hessian there. *)
Definition laplace (n : nat) (f : list R -> R) (m : list R) (P : list (list R)) : R :=
  f m + INR n / 2 * ln (2 * PI) - 1 / 2 * ln (det n (entry P)).

(** A normal density in d dimensions with mean m, precision P and variance V. *)
Definition nondegenerate (d : nat) (m : list R) (P V : list (list R)) : Prop :=
  length m = d /\ are_inverse d P V /\ symmetric d P /\ positive_definite d P.
