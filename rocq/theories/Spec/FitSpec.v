(** What an optimizer and a fit should do. *)
From Coq Require Import List Reals Arith.
From Coquelicot Require Import Coquelicot.
From Verif Require Import Model.Base Model.Fit Spec.GLMMSpec Spec.MatrixSpec Spec.FramesSpec.
Import ListNotations.
Local Open Scope R_scope.

(** What is known of optim with method BFGS: it stops with an error if the function is
    not finite where it starts, and returns a point where it is finite and not larger. *)
Definition descends (optim : (list R -> outcome dev) -> list R -> outcome (list R * list (list R))) : Prop :=
  forall f x0 x H, optim f x0 = Ok (x, H) -> length x = length x0 /\
    exists v0 v, f x0 = Ok (Fin v0) /\ f x = Ok (Fin v) /\ v <= v0.

(** The parameters of the random effects are in the box from -5 to 5. *)
Definition in_box (p_theta : nat) (x : list R) : Prop :=
  forall i, (i < p_theta)%nat -> Rabs (nth i x 0) <= 5.

(** [x] with component i replaced. *)
Definition at_i (x : list R) (i : nat) (t : R) : list R :=
  firstn i x ++ t :: skipn (S i) x.

(** [H] is the matrix of the second partial derivatives of [f] at [x]. *)
Definition hessian (p : nat) (f : list R -> R) (x : list R) (H : list (list R)) : Prop :=
  length x = p /\ square p H /\
  exists (g : nat -> list R -> R) (eps : R), 0 < eps /\
    (forall i y, (i < p)%nat -> length y = p -> (forall k, (k < p)%nat -> Rabs (nth k y 0 - nth k x 0) < eps) ->
       is_derive (fun t => f (at_i y i t)) (nth i y 0) (g i y)) /\
    (forall i j, (i < p)%nat -> (j < p)%nat ->
       is_derive (fun t => g i (at_i x j t)) (nth j x 0) (entry H i j)).

(** A function of parameters that does not depend on the signs of the first ones. *)
Definition signless (p_theta p : nat) (L : list R -> R) : Prop :=
  forall s x, length s = p_theta -> List.Forall sign s -> length x = p ->
    L (flip s (firstn p_theta x) ++ skipn p_theta x) = L x.

(** The estimated covariance matrix at the estimates [x] if the loglikelihood is [L]:
    twice the inverse of the Hessian of -2 L. *)
Definition observed_covariance (p : nat) (L : list R -> R) (x : list R) (V : list (list R)) : Prop :=
  exists H S, hessian p (fun y => -2 * L y) x H /\ are_inverse p H S /\
    square p V /\ forall i j, (i < p)%nat -> (j < p)%nat -> entry V i j = 2 * entry S i j.
