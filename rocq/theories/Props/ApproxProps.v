(** C82: the normal approximation has the precision matrix that was factorized. *)
From Coq Require Import List Reals Arith Lia Lra.
From Verif Require Import Model.NormalApprox Spec.GLMMSpec Spec.MatrixSpec Spec.FactorSpec Proofs.ApproxMain.
Import ListNotations.
Local Open Scope R_scope.

(** The permutation that the factorization uses is undone. *)
Theorem C82_precision : forall a p A, permutes (af_n a) p -> permutation_matrix (af_n a) p (af_P a) -> factor_of (af_n a) p (af_L a) A ->
  square (af_n a) (na_precision (compute_normal_approx a)) /\
  forall i j, (i < af_n a)%nat -> (j < af_n a)%nat -> entry (na_precision (compute_normal_approx a)) i j = entry A i j.
Proof. exact precision_main. Qed.
Print Assumptions C82_precision.

(** It is symmetric, and positive definite for a triangular factor without zeros on the
    diagonal. *)
Theorem C82_symmetric : forall a p A, permutes (af_n a) p -> permutation_matrix (af_n a) p (af_P a) -> factor_of (af_n a) p (af_L a) A ->
  symmetric (af_n a) (na_precision (compute_normal_approx a)).
Proof. exact symmetric_main. Qed.
Print Assumptions C82_symmetric.
Theorem C82_positive : forall a p A, permutes (af_n a) p -> permutation_matrix (af_n a) p (af_P a) -> factor_of (af_n a) p (af_L a) A ->
  lower (af_n a) (af_L a) -> positive_definite (af_n a) (na_precision (compute_normal_approx a)).
Proof. exact positive_main. Qed.
Print Assumptions C82_positive.

(** The deviance is minus twice the loglikelihood; the mean is that of lme4. *)
Theorem C82_values : forall a, af_deviance a = -2 * l_laplace (compute_normal_approx a) /\ na_mean (compute_normal_approx a) = af_delu a.
Proof. exact values_main. Qed.
Print Assumptions C82_values.

(** A permutation that is not its own inverse, so that P and its transpose differ. *)
Definition case_p (i : nat) : nat := match i with 0 => 1 | 1 => 2 | _ => 0 end%nat.
Definition case : after_devfun := mkAfter 10 [1; 2; 3] 3 [[1; 0; 0]; [2; 1; 0]; [0; 3; 2]] [[0; 1; 0]; [0; 0; 1]; [1; 0; 0]].
Definition case_A : list (list R) := [[13; 0; 3]; [0; 1; 2]; [3; 2; 5]].
Ltac below i := destruct i as [|[|[|i]]]; [| | |lia].
Example C82_case : permutes 3 case_p /\ permutation_matrix 3 case_p (af_P case) /\ factor_of 3 case_p (af_L case) case_A /\ lower 3 (af_L case).
Proof.
  assert (SP : square 3 (af_P case)) by (split; [reflexivity|intros i I; below i; reflexivity]).
  assert (SL : square 3 (af_L case)) by (split; [reflexivity|intros i I; below i; reflexivity]).
  split; [split; [intros i I; below i; cbn; lia|intros i j I J; below i; below j; cbn; lia]|].
  split; [split; [exact SP|intros i j I J; below i; below j; reflexivity]|].
  split; [split; [exact SL|intros i j I J; below i; below j; cbv [sumR seq map fold_right entry nth af_L case case_A case_p]; lra]|].
  split; [intros i j I J H; below i; below j; try lia; reflexivity|intros i I; below i; cbv [entry nth af_L case]; lra].
Qed.
