(** C70: responses with two columns, successes and failures. *)
From Coq Require Import String List ZArith Reals.
From Verif Require Import Model.Base Model.Family Model.GLMM Model.SplitFrame Model.Frames Model.IS Model.HOL Model.TwoColumn
  Spec.Numbers Spec.GLMMSpec Spec.SplitSpec Spec.FramesSpec Spec.ISSpec Spec.HOLSpec Proofs.HOLMain Proofs.TwoColumnMain.
Import ListNotations.
Local Open Scope R_scope.

(** The factors are made without an error, and every observation is in one of them; but
    no factor with an observation can be evaluated at any point: the coefficientwise
    product of arrays of different sizes is undefined. *)
Theorem C70_sequential : forall t : two_columns Rnum, let fr := tc_frame _ t in let n := length (cs_cols (fr_Zt _ fr)) in
  regular fr -> no_empty fr -> (1 <= n)%nat -> length (tc_second _ t) = n ->
  exists ds, two_column_factorization_terms Rnum t =
    Ok (map (GLMMTerm Rnum) ds ++ map (fun i => NormalTerm Rnum [Z.of_nat i] [0] [[1]]) (seq 0 (cs_rows (fr_Zt _ fr)))) /\
  fold_right Nat.add 0%nat (map (gd_numObs Rnum) ds) = n /\
  forall d, In d ds -> (1 <= gd_numObs _ d)%nat -> forall c x p v, glmm_evaluate Rnum d c x p <> Ok v.
Proof. exact C70_sequential_main. Qed.
Print Assumptions C70_sequential.

(** Nor is there a second-order term (in the same way) *)
Theorem C70_second_order : forall solve familyName linkName n m r y w theta beta second H u_hat, fits n m r y w theta beta ->
  length second = n -> length u_hat = nrandom m -> forall v,
  find_epsilon_1 solve familyName linkName (theta ++ beta) (two_column_modfr Rnum m second) r u_hat H <> Ok v.
Proof. exact C70_second_order_main. Qed.
Print Assumptions C70_second_order.

(** or an integrand for importance sampling: dev.resids refuses arguments of different
    lengths, unless one has length 1. *)
Theorem C70_importance : forall fam n m r y w theta beta second nIS u, fits n m r y w theta beta ->
  length second = n -> (1 <= nIS)%nat -> (2 <= n * nIS)%nat -> sized (nrandom m) nIS u -> forall v,
  find_log_integrand fam (theta ++ beta) (two_column_modfr Rnum m second) r nIS u <> Ok v.
Proof. exact C70_importance_main. Qed.
Print Assumptions C70_importance.

(** The frame of C56_case with the second column 1 - y, and the frame of C52_case. *)
Example C70_case : (regular (tc_frame _ two_contests) /\ no_empty (tc_frame _ two_contests)) /\
  length (tc_second _ two_contests) = length (cs_cols (fr_Zt _ (tc_frame _ two_contests))) /\
  fits 1 case_h case_hr [0] [1] [1] [1 / 2].
Proof. exact two_contests_case. Qed.
