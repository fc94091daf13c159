(** Signs of normals, positive roots and symmetric rules, independent of the code. *)
From Coq Require Import List Reals Arith.
From Verif Require Import Model.Base Model.MultiNormal Model.Quadrature Spec.MatrixSpec Spec.StoreSpec Spec.FramesSpec Spec.SymmetrySpec.
From Verif Require Spec.FactorSpec.
Import ListNotations.
Local Open Scope R_scope.

(** A normal with the signs of its components changed. *)
Definition flip_normal (s : list R) (n : mnormal) : mnormal :=
  mkNormal (flip s (no_mean n)) (flip_matrix s (no_precision n)) (flip_matrix s (no_variance n)) (no_normalizer n).

(** The positive definite square root of a matrix and its inverse. *)
Definition positive_roots (d : nat) (P S T : list (list R)) : Prop := matrix_roots d P S T /\ FactorSpec.positive_definite d S.

(** A quadrature rule that treats both signs alike. *)
Definition symmetric_rule (r : rule) : Prop := forall h : R -> R,
  fold_right Rplus 0 (map (fun p => snd p * h (- fst p)) (combine (qr_nodes r) (qr_weights r))) =
  fold_right Rplus 0 (map (fun p => snd p * h (fst p)) (combine (qr_nodes r) (qr_weights r))).
