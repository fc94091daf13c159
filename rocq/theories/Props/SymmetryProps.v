(** C85. *)
From Coq Require Import List Arith Reals Lra Lia.
From Verif Require Import Model.Base Model.SparseGrid Model.Vectors Model.BasisLevel Spec.GridSpec Spec.NodalSpec Spec.MatrixSpec
  Spec.SplineSpec Spec.FramesSpec Spec.SymmetrySpec Proofs.QuantileMain Proofs.BasisMain Proofs.SymmetryMain.
Import ListNotations.
Local Open Scope R_scope.

(** * C85 *)
(** Knots and basis functions of each level come in mirror images. *)
Theorem C85_basis : forall q inverse solve L, is_normal_quantile q -> (1 <= L <= 25)%nat ->
  (forall d A, inverts inverse d A) -> solves_systems solve ->
  exists b, basis_new q inverse solve L = Ok b /\ forall l j, (l <= L)%nat -> (j < 2 ^ l)%nat ->
    (exists x, b_getKnot b l j = Ok x /\ b_getKnot b l (2 ^ l - 1 - j)%nat = Ok (- x)) /\
    forall y, Rabs y <= 2 ^ 31 * bandwidth q L -> exists v, b_evaluate b (- y) l j = Ok v /\ b_evaluate b y l (2 ^ l - 1 - j)%nat = Ok v.
Proof. exact C85_basis_main. Qed.

(** Changing the signs of some arguments of a function changes its interpolant in the same way. *)
Theorem C85_grid : forall b k D x phi phi1 phi2,
  total_basis b k D x phi -> nodal k x phi -> smooth_basis b k D phi phi1 phi2 -> mirrored k x phi ->
  forall d f s, length s = d -> Forall sign s ->
  exists g g', grid_of f d b = Ok g /\ grid_of (fun y => f (flip s y)) d b = Ok g' /\
    forall y, length y = d -> Forall D y -> Forall D (flip s y) -> exists v w A,
      interpolate g (flip s y) b = Ok v /\ interpolate g' y b = Ok v /\
      interpolateDerivative g (flip s y) b = Ok w /\ interpolateDerivative g' y b = Ok (flip s w) /\
      interpolateSecondDerivative g (flip s y) b = Ok A /\ interpolateSecondDerivative g' y b = Ok (flip_matrix s A).
Proof. exact C85_grid_main. Qed.

Theorem C85_sparse_grid : forall q inverse solve L, is_normal_quantile q -> (1 <= L <= 25)%nat ->
  (forall d A, inverts inverse d A) -> solves_systems solve ->
  exists b, basis_new q inverse solve L = Ok b /\ forall d f s, length s = d -> Forall sign s ->
  exists g g', grid_of f d b = Ok g /\ grid_of (fun y => f (flip s y)) d b = Ok g' /\
    forall y, length y = d -> Forall (fun v => Rabs v <= 2 ^ 31 * bandwidth q L) y -> exists v w A,
      interpolate g (flip s y) b = Ok v /\ interpolate g' y b = Ok v /\
      interpolateDerivative g (flip s y) b = Ok w /\ interpolateDerivative g' y b = Ok (flip s w) /\
      interpolateSecondDerivative g (flip s y) b = Ok A /\ interpolateSecondDerivative g' y b = Ok (flip_matrix s A).
Proof. exact C85_sparse_main. Qed.

(** Two arguments, the sign of the second changed, at levelMax = 2. *)
Example C85_case : exists b, basis_new quantile some_inverse some_solve 2 = Ok b /\
  exists g g', grid_of (fun y => nth 0 y 0 + exp (nth 1 y 0)) 2 b = Ok g /\
    grid_of (fun y => nth 0 (flip [1; -1] y) 0 + exp (nth 1 (flip [1; -1] y) 0)) 2 b = Ok g' /\
    exists v w A, interpolate g [0; 0] b = Ok v /\ interpolate g' [0; 0] b = Ok v /\
      interpolateDerivative g [0; 0] b = Ok w /\ interpolateDerivative g' [0; 0] b = Ok (flip [1; -1] w) /\
      interpolateSecondDerivative g [0; 0] b = Ok A /\ interpolateSecondDerivative g' [0; 0] b = Ok (flip_matrix [1; -1] A).
Proof.
  destruct (C85_sparse_grid quantile some_inverse some_solve 2 quantile_normal ltac:(lia) some_inverse_inverts some_solve_solves) as (b & Eb & H).
  exists b. split; [exact Eb|].
  destruct (H 2%nat (fun y => nth 0 y 0 + exp (nth 1 y 0)) [1; -1] eq_refl ltac:(repeat constructor; unfold sign; lra)) as (g & g' & Eg & Eg' & K).
  exists g, g'. split; [exact Eg|]. split; [exact Eg'|].
  destruct (K [0; 0] eq_refl) as (v & w & A & V).
  - assert (0 <= 2 ^ 31 * bandwidth quantile 2).
    { apply Rmult_le_pos; [apply pow_le; lra|]. left. apply (KnotMain.bw_pos quantile (normal_quantile_like _ quantile_normal) 2). lia. }
    constructor; [now rewrite Rabs_R0|constructor; [now rewrite Rabs_R0|constructor]].
  - exists v, w, A. assert (E0 : flip [1; -1] [0; 0] = [0; 0]) by (unfold flip; cbn; f_equal; [ring|f_equal; ring]). rewrite E0 in V. exact V.
Qed.

Print Assumptions C85_basis.
Print Assumptions C85_grid.
Print Assumptions C85_sparse_grid.
