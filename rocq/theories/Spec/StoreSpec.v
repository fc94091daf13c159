(** Systems of linear equations with one right-hand side, and roots of matrices,
    independent of the code. *)
From Coq Require Import List Reals Arith.
From Verif Require Import Model.Base Spec.GLMMSpec Spec.MatrixSpec.
Import ListNotations.
Local Open Scope R_scope.

(** A x = rhs. *)
Definition solves_system (d : nat) (A : list (list R)) (rhs x : list R) : Prop :=
  length x = d /\ forall i, (i < d)%nat -> sumR d (fun j => entry A i j * nth j x 0) = nth i rhs 0.
(** What is expected of a routine for solving equations: if there is a solution, it
    finds one. *)
Definition finds_solution (solve : list (list R) -> list R -> list R) (d : nat) (A : list (list R)) (rhs : list R) : Prop :=
  (exists x, solves_system d A rhs x) -> solves_system d A rhs (solve A rhs).

(** S and T are the square roots of P and of its inverse. *)
Definition matrix_roots (d : nat) (P S T : list (list R)) : Prop :=
  are_inverse d S T /\ symmetric d S /\
  forall i j, (i < d)%nat -> (j < d)%nat -> row_col d S S i j = entry P i j.

(** c + g . (x - m) + (x - m)^T H (x - m) / 2. *)
Definition quadratic_function (d : nat) (c : R) (g : list R) (H : list (list R)) (m x : list R) : R :=
  c + sumR d (fun i => nth i g 0 * (nth i x 0 - nth i m 0)) + 1 / 2 * quad d H m x.

(** What is returned, as a total function. *)
Definition value_of (o : outcome R) : R := match o with Ok v => v | _ => 0 end.
Definition entry_of (o : outcome (list R)) (i : nat) : R := match o with Ok v => nth i v 0 | _ => 0 end.
