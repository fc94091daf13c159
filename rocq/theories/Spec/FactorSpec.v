(** Cholesky factors with a permutation, independent of the code. *)
From Coq Require Import List Reals Arith.
From Verif Require Import Spec.GLMMSpec Spec.MatrixSpec.
Import ListNotations.
Local Open Scope R_scope.

(** p permutes the numbers below n. *)
Definition permutes (n : nat) (p : nat -> nat) : Prop :=
  (forall i, (i < n)%nat -> (p i < n)%nat) /\
  (forall i j, (i < n)%nat -> (j < n)%nat -> p i = p j -> i = j).

(** P is the matrix of p: row i has its one in column p i, so that (P x)_i = x_(p i). *)
Definition permutation_matrix (n : nat) (p : nat -> nat) (P : list (list R)) : Prop :=
  square n P /\ forall i j, (i < n)%nat -> (j < n)%nat -> entry P i j = if Nat.eqb j (p i) then 1 else 0.

(** L is a factor of A with its rows and columns in the order p: L L^T = P A P^T. *)
Definition factor_of (n : nat) (p : nat -> nat) (L A : list (list R)) : Prop :=
  square n L /\ forall i j, (i < n)%nat -> (j < n)%nat ->
    sumR n (fun k => entry L i k * entry L j k) = entry A (p i) (p j).

(** L is lower triangular, without zeros on the diagonal. *)
Definition lower (n : nat) (L : list (list R)) : Prop :=
  (forall i j, (i < n)%nat -> (j < n)%nat -> (i < j)%nat -> entry L i j = 0) /\
  (forall i, (i < n)%nat -> entry L i i <> 0).

(** x^T Q x. *)
Definition form (n : nat) (Q : list (list R)) (x : nat -> R) : R :=
  sumR n (fun i => sumR n (fun j => x i * entry Q i j * x j)).
Definition positive_definite (n : nat) (Q : list (list R)) : Prop :=
  forall x, (exists i, (i < n)%nat /\ x i <> 0) -> 0 < form n Q x.
