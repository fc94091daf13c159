(** A joint normal distribution of the items, given by its precision matrix, and
    its marginals. *)
From Coq Require Import List Reals ZArith.
From Verif Require Import Model.MultiNormal Spec.GLMMSpec Spec.MatrixSpec.
Import ListNotations.
Local Open Scope R_scope.

Definition lsumR (l : list Z) (f : Z -> R) : R := fold_right Rplus 0 (map f l).
(** w^T Q w, over the given items. *)
Definition joint_form (items : list Z) (Q : Z -> Z -> R) (w : Z -> R) : R :=
  lsumR items (fun x => lsumR items (fun y => w x * Q x y * w y)).

(** [Q] is a precision matrix (symmetric and positive definite), and an entry is
    zero unless the two items occur together in one of the scopes. *)
Record joint_precision (scopes : list (list Z)) (items : list Z) (Q : Z -> Z -> R) : Prop := {
  jp_sym : forall x y, In x items -> In y items -> Q x y = Q y x;
  jp_pos : forall w, (exists x, In x items /\ w x <> 0) -> 0 < joint_form items Q w;
  jp_local : forall x y, In x items -> In y items -> x <> y -> Q x y <> 0 ->
    exists s, In s scopes /\ In x s /\ In y s
}.

(** [Sigma] is the variance matrix, the inverse of [Q]. *)
Definition joint_variance (items : list Z) (Q Sigma : Z -> Z -> R) : Prop :=
  forall x z, In x items -> In z items ->
    lsumR items (fun y => Q x y * Sigma y z) = if Z.eqb x z then 1 else 0.

(** The normal [n] is the distribution of the items [C] (in this order) when all
    of them have means [mu] and variances and covariances [Sigma]. *)
Definition marginal_normal (mu : Z -> R) (Sigma : Z -> Z -> R) (C : list Z) (n : mnormal) : Prop :=
  no_mean n = map mu C /\
  are_inverse (length C) (no_precision n) (no_variance n) /\
  forall i j, (i < length C)%nat -> (j < length C)%nat ->
    entry (no_variance n) i j = Sigma (nth i C 0%Z) (nth j C 0%Z).
