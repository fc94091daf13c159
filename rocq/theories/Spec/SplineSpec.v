(** Quantiles of the standard normal distribution, knots on a line and systems of
    linear equations, independent of the code. *)
From Coq Require Import List Reals Arith.
From Coquelicot Require Import Coquelicot.
From Verif Require Import Spec.GLMMSpec Spec.FamilySpec Spec.MatrixSpec.
Import ListNotations.
Local Open Scope R_scope.

(** [q] is the quantile function of the standard normal distribution. *)
Definition is_normal_quantile (q : R -> R) : Prop :=
  exists P, is_normal_cdf P /\ forall p, 0 < p < 1 -> P (q p) = p.

(** What is used of it: increasing, odd about 1/2, steeper and steeper above 1/2. *)
Record normal_like (q : R -> R) : Prop := {
  nl_increasing : forall a b, 0 < a -> a < b -> b < 1 -> q a < q b;
  nl_odd : forall p, 0 < p < 1 -> q (1 - p) = - q p;
  nl_convex : forall a b d, 1 / 2 <= a -> a <= b -> 0 <= d -> b + d < 1 -> q (a + d) - q a <= q (b + d) - q b
}.

(** The farthest knot is less than 2^31 bandwidths away from 0; a bandwidth is a
    tenth of the smallest positive knot. *)
Definition knots_fit (q : R -> R) (levelMax : nat) : Prop :=
  10 * q (1 - / 2 ^ (levelMax + 1)) < 2 ^ 31 * q (1 / 2 + / 2 ^ (levelMax + 1)).

Definition strictly_increasing (l : list R) : Prop :=
  forall i j, (i < j)%nat -> (j < length l)%nat -> nth i l 0 < nth j l 0.
(** How many elements of [l] are at most x. *)
Definition count_upto (l : list R) (x : R) : nat :=
  length (filter (fun k => if Rle_dec k x then true else false) l).

(** X solves A X = B, with n equations and unknowns and p right-hand sides. *)
Definition is_solution (n p : nat) (A B X : list (list R)) : Prop :=
  length X = n /\ (forall i, (i < n)%nat -> length (nth i X []) = p) /\
  forall i j, (i < n)%nat -> (j < p)%nat -> sumR n (fun k => entry A i k * entry X k j) = entry B i j.
(** What is expected of a routine for solving linear equations: if there is a
    solution, the routine finds one. *)
Definition solves_systems (solve : list (list R) -> list (list R) -> list (list R)) : Prop :=
  forall n p A B, square n A -> length B = n -> (forall i, (i < n)%nat -> length (nth i B []) = p) ->
  (exists X, is_solution n p A B X) -> is_solution n p A B (solve A B).
