(** Matrices by their entries, and normal densities, independent of the code. *)
From Coq Require Import List Reals Arith.
From Verif Require Import Spec.GLMMSpec.
Import ListNotations.
Local Open Scope R_scope.

Definition entry (m : list (list R)) (i j : nat) : R := nth j (nth i m []) 0.
Definition square (d : nat) (m : list (list R)) : Prop :=
  length m = d /\ forall i, (i < d)%nat -> length (nth i m []) = d.
Definition symmetric (d : nat) (m : list (list R)) : Prop :=
  forall i j, (i < d)%nat -> (j < d)%nat -> entry m i j = entry m j i.

(** Row i of A times column j of B. *)
Definition row_col (d : nat) (A B : list (list R)) (i j : nat) : R :=
  sumR d (fun k => entry A i k * entry B k j).
Definition unit_entry (i j : nat) : R := if Nat.eqb i j then 1 else 0.
Definition are_inverse (d : nat) (A B : list (list R)) : Prop :=
  square d A /\ square d B /\
  forall i j, (i < d)%nat -> (j < d)%nat ->
    row_col d A B i j = unit_entry i j /\ row_col d B A i j = unit_entry i j.

(** What is expected of a routine for inverting matrices: if [A] has an inverse,
    the routine finds it. *)
Definition inverts (inverse : list (list R) -> list (list R)) (d : nat) (A : list (list R)) : Prop :=
  forall B, are_inverse d A B -> inverse A = B.

(** (x - m)^T P (x - m): minus twice the logarithm of a normal density, up to a
    constant. *)
Definition quad (d : nat) (P : list (list R)) (m x : list R) : R :=
  sumR d (fun i => sumR d (fun j =>
    (nth i x 0 - nth i m 0) * entry P i j * (nth j x 0 - nth j m 0))).

(** In the normal density with mean m and precision P, the conditional density of
    component o, given that the other components are those of z, is normal with
    mean c and precision [entry P o o]: as a function of component o, the
    quadratic form is that of N(c, 1 / P_oo) up to a constant. *)
Definition conditional_mean (d : nat) (P : list (list R)) (m : list R) (o : nat) (z : R -> list R) (c : R) : Prop :=
  forall t, quad d P m (z t) = quad d P m (z c) + entry P o o * (t - c) ^ 2.
