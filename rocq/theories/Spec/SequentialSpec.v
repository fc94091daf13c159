(** Laplace's approximation and adaptive Gauss-Hermite quadrature for functions of
    several items, independent of the code. *)
From Coq Require Import List Reals ZArith ClassicalEpsilon.
From Verif Require Import Model.Base Model.MultiNormal Model.Sequential Spec.MatrixSpec Spec.LaplaceSpec Spec.JointSpec Spec.GridSpec.
Import ListNotations.
Local Open Scope R_scope.

(** The logarithm of the integral of exp F over the items by Laplace's method, if mu is
    the mode and Q minus the Hessian there. *)
Definition items_laplace (items : list Z) (F : (Z -> R) -> R) (mu : Z -> R) (Q : Z -> Z -> R) : R :=
  F mu + INR (length items) / 2 * ln (2 * PI)
  - 1 / 2 * ln (det (length items) (fun i j => Q (nth i items 0%Z) (nth j items 0%Z))).

(** The logarithm of the integral of exp F by Gauss-Hermite quadrature, with the nodes
    moved to mu and stretched by the standard deviation sigma. *)
Definition adaptive_quadrature (nodes weights : list R) (mu sigma : R) (F : R -> R) : R :=
  ln (fold_right Rplus 0 (map (fun p =>
    sqrt 2 * sigma * snd p * exp (fst p ^ 2) * exp (F (mu + sqrt 2 * sigma * fst p))) (combine nodes weights))).

(** The logarithms of the normalizing constants of the marginal distributions of the
    items, as the code computes them, are not zero. *)
Definition proper_marginals (determinant : list (list R) -> R) (items : list Z) (mu : Z -> R) (Sigma : Z -> Z -> R) : Prop :=
  forall C n, NoDup C -> C <> [] -> incl C items -> marginal_normal mu Sigma C n ->
  - INR (length C) * logSqrtTwoPi + 1 / 2 * ln (determinant (no_precision n)) <> 0.

(** A request to integrate component k out of the function f with derivatives d and d2
    that makes sense: k is one of the components, the vectors and matrices have the right
    sizes, and f, d and d2 are defined everywhere. *)
Definition good_call (f : list R -> outcome R) (d : list R -> outcome (list R)) (d2 : list R -> outcome (list (list R)))
    (k : nat) (n : mnormal) (items : list Z) : Prop :=
  let m := S (length items) in
  (k < m)%nat /\ length (no_mean n) = m /\ square m (no_precision n) /\ square m (no_variance n) /\
  forall x, length x = m ->
  (exists v, f x = Ok v) /\ (exists g, d x = Ok g /\ length g = m) /\ (exists h, d2 x = Ok h /\ square m h).

(** Undefined for requests that do not make sense. *)
Definition checked {T : Type} (integral : (list R -> outcome R) -> (list R -> outcome (list R)) -> (list R -> outcome (list (list R))) ->
    nat -> mnormal -> list Z -> outcome T) f d d2 k n items : outcome T :=
  if excluded_middle_informative (good_call f d d2 k n items) then integral f d d2 k n items else UB.

(** Linear algebra returns vectors and matrices of the right sizes, and so do undefined
    reads of stored functions. *)
Record right_sizes (inverse : list (list R) -> list (list R)) (solve : list (list R) -> list R -> list R)
    (operatorSqrt operatorInverseSqrt : list (list R) -> list (list R)) (u : elsewhere) : Prop := {
  rs_inverse : forall d A, (0 < d)%nat -> square d A -> square d (inverse A);
  rs_sqrt : forall d A, (0 < d)%nat -> square d A -> square d (operatorSqrt A) /\ square d (operatorInverseSqrt A);
  rs_solve : forall d A v, (0 < d)%nat -> square d A -> length v = d -> length (solve A v) = d;
  rs_derivative : forall s x, length (el_derivative u s x) = length x;
  rs_second : forall s x, square (length x) (el_secondDerivative u s x)
}.

(** A request to integrate that leaves a function of so few items that its sparse grid
    with [nSL] levels does not have more than [limit] points. *)
Definition small_grid (limit : Z) (nSL : nat) (items : list Z) : Prop :=
  forall points, NoDup points -> (forall levels positions, In (levels, positions) points -> grid_point (length items) nSL levels positions) ->
  (Z.of_nat (length points) <= limit)%Z.

(** Undefined for larger grids. *)
Definition limited {T : Type} (limit : Z) (nSL : nat) (integral : (list R -> outcome R) -> (list R -> outcome (list R)) -> (list R -> outcome (list (list R))) ->
    nat -> mnormal -> list Z -> outcome T) f d d2 k n items : outcome T :=
  if excluded_middle_informative (small_grid limit nSL items) then integral f d d2 k n items else UB.
