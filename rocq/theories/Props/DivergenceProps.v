(** C77: the divergence with second derivatives. *)
From Coq Require Import List Arith Reals.
From Verif Require Import Model.Base Model.Vectors Model.HOL Model.Divergence Spec.GLMMSpec Spec.MatrixSpec Spec.LaplaceSpec Spec.DivergenceSpec
  Proofs.DivergenceMain Proofs.DivergenceCases.
From Verif Require Proofs.JointCases.
Import ListNotations.
Local Open Scope R_scope.

(** The result is the Kullback-Leibler divergence of two normal distributions: the first has
    the estimates m and their covariance matrix V, the second those changed by the gradient
    delta and the second derivatives gamma. *)
Theorem C77_divergence : forall solve log_modulus p m delta m2 gamma V J K V2 E, inverts p solve -> log_determinants p log_modulus ->
  are_inverse p V J -> symmetric p V -> positive_definite p V -> length delta = p -> square p gamma ->
  updated p J gamma K V2 delta m m2 -> symmetric p V2 -> positive_definite p V2 -> expectation p m2 V2 E ->
  find_laplace_divergence_2 solve log_modulus p delta gamma V = divergence E (log_normal p V J m) (log_normal p V2 K m2).
Proof. exact C77_divergence_main. Qed.
Print Assumptions C77_divergence.

(** The second distribution is the first with the quadratic function added to its logarithm,
    and the changed estimates are where this is largest. *)
Theorem C77_second_order : forall solve p m delta m2 gamma V J K V2, inverts p solve -> are_inverse p V J -> length delta = p -> length m = p -> square p gamma ->
  updated p J gamma K V2 delta m m2 -> symmetric p V2 -> positive_definite p V2 ->
  estim_2_1 solve p m delta gamma V = m2 /\
  (forall x, length x = p -> log_normal p V J m x + quadratic p delta gamma m x <= log_normal p V J m m2 + quadratic p delta gamma m m2) /\
  exists c, forall x, length x = p -> log_normal p V2 K m2 x = c + log_normal p V J m x + quadratic p delta gamma m x.
Proof. exact C77_second_order_main. Qed.
Print Assumptions C77_second_order.

(** It is never negative, and zero exactly if both the gradient and the second derivatives
    are zero. *)
Theorem C77_distance : forall solve log_modulus p m delta m2 gamma V J K V2, inverts p solve -> log_determinants p log_modulus ->
  are_inverse p V J -> symmetric p V -> positive_definite p V -> length delta = p -> square p gamma ->
  updated p J gamma K V2 delta m m2 -> symmetric p V2 -> positive_definite p V2 ->
  0 <= find_laplace_divergence_2 solve log_modulus p delta gamma V /\
  (find_laplace_divergence_2 solve log_modulus p delta gamma V = 0 <->
     (forall i, (i < p)%nat -> nth i delta 0 = 0) /\ forall i j, (i < p)%nat -> (j < p)%nat -> entry gamma i j = 0).
Proof. exact C77_distance_main. Qed.
Print Assumptions C77_distance.

(** Where the second derivatives are zero it is the divergence that glmm reports. *)
Theorem C77_default : forall solve log_modulus p delta gamma V J, inverts p solve -> are_inverse p V J -> symmetric p V -> length delta = p -> square p gamma ->
  (forall i j, (i < p)%nat -> (j < p)%nat -> entry gamma i j = 0) ->
  find_laplace_divergence_2 solve log_modulus p delta gamma V = find_laplace_divergence delta V.
Proof. exact default_main. Qed.
Print Assumptions C77_default.

Example C77_case : inverts 2 JointCases.inv_all /\ log_determinants 2 case_modulus /\ are_inverse 2 [[2; 1]; [1; 1]] [[1; - (1)]; [- (1); 2]] /\
  symmetric 2 [[2; 1]; [1; 1]] /\ positive_definite 2 [[2; 1]; [1; 1]] /\ square 2 [[- (1); 0]; [0; 0]] /\
  updated 2 [[1; - (1)]; [- (1); 2]] [[- (1); 0]; [0; 0]] [[2; - (1)]; [- (1); 2]] [[2 / 3; 1 / 3]; [1 / 3; 2 / 3]] [0; 1] [0; 0] [1 / 3; 2 / 3] /\
  symmetric 2 [[2 / 3; 1 / 3]; [1 / 3; 2 / 3]] /\ positive_definite 2 [[2 / 3; 1 / 3]; [1 / 3; 2 / 3]] /\
  expectation 2 [1 / 3; 2 / 3] [[2 / 3; 1 / 3]; [1 / 3; 2 / 3]] six /\
  find_laplace_divergence_2 JointCases.inv_all case_modulus 2 [0; 1] [[- (1); 0]; [0; 0]] [[2; 1]; [1; 1]] = 1 / 2 * (ln 3 - 1 / 9).
Proof. exact C77_case_main. Qed.
