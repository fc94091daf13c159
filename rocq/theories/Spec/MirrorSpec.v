(** Parameters that differ by signs of the random effects. *)
From Coq Require Import List Reals ZArith.
From Verif Require Import Model.Base Model.Family Model.GLMM Model.SplitFrame Spec.Numbers Spec.GLMMSpec Spec.SplitSpec Spec.FramesSpec Spec.MatrixSpec.
Import ListNotations.
Local Open Scope R_scope.

(** The random effects u with the parameters theta' give the same linear predictors as
    those with the signs s changed do with theta. *)
Definition mirror (fr : frame Rnum) (beta theta theta' s : list R) : Prop :=
  length s = cs_rows (fr_Zt _ fr) /\ List.Forall sign s /\
  forall u k, length u = cs_rows (fr_Zt _ fr) -> (k < length (cs_cols (fr_Zt _ fr)))%nat ->
    eta (whole fr) beta theta' u k = eta (whole fr) beta theta (flip s u) k.

(** A matrix with the signs of rows and columns changed. *)
Definition flipped (d : nat) (s : list R) (A A' : list (list R)) : Prop :=
  square d A' /\ forall i j, (i < d)%nat -> (j < d)%nat -> MatrixSpec.entry A' i j = nth i s 0 * nth j s 0 * MatrixSpec.entry A i j.

(** Draws, the columns of a matrix, with the signs changed. *)
Definition flip_rows (s : list R) (z : list (list R)) : list (list R) := map (fun p => map (Rmult (fst p)) (snd p)) (combine s z).

(** The sign that belongs to a random effect. *)
Definition sign_of (s : list R) (e : Z) : R := nth (Z.to_nat e) s 0.
