(** Normal distributions of the parameters. *)
From Coq Require Import List Arith Reals.
From Verif Require Import Spec.GLMMSpec Spec.MatrixSpec Spec.LaplaceSpec.
Import ListNotations.
Local Open Scope R_scope.

(** The logarithm of the normal density with mean [m], covariance matrix [V] and precision
    [J]. *)
Definition log_normal (p : nat) (V J : list (list R)) (m x : list R) : R :=
  - (INR p * ln (2 * PI) / 2) - ln (det p (entry V)) / 2 - quad p J m x / 2.

(** The expectation of functions of p numbers that have this mean and covariance matrix. *)
Record expectation (p : nat) (m : list R) (V : list (list R)) (E : (list R -> R) -> R) : Prop := {
  e_linear : forall a b f g, E (fun x => a * f x + b * g x) = a * E f + b * E g;
  e_same : forall f g, (forall x, length x = p -> f x = g x) -> E f = E g;
  e_one : E (fun _ => 1) = 1;
  e_mean : forall i, (i < p)%nat -> E (fun x => nth i x 0) = nth i m 0;
  e_cov : forall i j, (i < p)%nat -> (j < p)%nat ->
    E (fun x => (nth i x 0 - nth i m 0) * (nth j x 0 - nth j m 0)) = entry V i j
}.

(** The Kullback-Leibler divergence of the second density from the first: the expectation,
    for the second, of the logarithm of the ratio of the densities. *)
Definition divergence (E2 : (list R -> R) -> R) (log_f1 log_f2 : list R -> R) : R := E2 (fun x => log_f2 x - log_f1 x).

(** The function with gradient delta and matrix of second derivatives gamma at m, and value
    zero there, that has no third derivatives. *)
Definition quadratic (p : nat) (delta : list R) (gamma : list (list R)) (m x : list R) : R :=
  sumR p (fun i => nth i delta 0 * (nth i x 0 - nth i m 0)) + quad p gamma m x / 2.

(** Adding [quadratic p delta gamma m] to the logarithm of the normal density with mean m and
    precision J changes the precision to K, with inverse V2, and the mean to m2. *)
Definition updated (p : nat) (J gamma K V2 : list (list R)) (delta m m2 : list R) : Prop :=
  are_inverse p K V2 /\
  (forall i j, (i < p)%nat -> (j < p)%nat -> entry K i j = entry J i j - entry gamma i j) /\
  length m2 = p /\
  (forall i, (i < p)%nat -> nth i m2 0 = nth i m 0 + sumR p (fun j => entry V2 i j * nth j delta 0)).

(** What is expected of solve and of determinant(, logarithm = TRUE)$modulus. *)
Definition inverts (p : nat) (solve : list (list R) -> list (list R)) : Prop :=
  forall A B, are_inverse p A B -> are_inverse p A (solve A).
Definition log_determinants (p : nat) (log_modulus : list (list R) -> R) : Prop :=
  forall A, log_modulus A = ln (Rabs (det p (entry A))).
