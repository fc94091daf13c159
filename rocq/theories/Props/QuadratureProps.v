(** C29 and C30: Gauss-Hermite quadrature and Laplace's method, in exact
    arithmetic. *)
From Coq Require Import List Reals Lia Lra Arith Bool.
From Verif Require Import Model.Base Model.Mixed Model.Vectors Model.MultiNormal Model.Quadrature
  Model.IntegratedFunction Model.Margin Spec.GLMMSpec Spec.MatrixSpec Spec.HermiteSpec Spec.LaplaceSpec
  Proofs.HermiteMain Proofs.LaplaceMain Proofs.NormalCases Proofs.QuadratureCases Proofs.Constants.
Import ListNotations.
Local Open Scope R_scope.

(** C29: polynomials with at most 2n coefficients are integrated exactly, apart
    from the constant used for sqrt(pi). *)
Theorem C29_polynomials : forall n lam Q es,
  (0 < n)%nat -> eigendecomposition n (findHermiteJacobi n) lam Q -> es (findHermiteJacobi n) = (lam, Q) ->
  forall p mu sigma, (length p <= 2 * n)%nat -> 0 < sigma ->
  exists I, integral (fun t => poly p t * normal_kernel mu sigma t) I /\
    integrate1D (fun t => poly p t * normal_kernel mu sigma t) mu sigma (rule_initialize es n)
    = sqrtPi / sqrt PI * I.
Proof. intros n lam Q es Hn Hed Hes. exact (C29_exact n lam Q Hed Hn es Hes). Qed.
Print Assumptions C29_polynomials.

Theorem C29_rule : forall n lam Q es,
  (0 < n)%nat -> eigendecomposition n (findHermiteJacobi n) lam Q -> es (findHermiteJacobi n) = (lam, Q) ->
  let r := rule_initialize es n in
  length (qr_nodes r) = n /\ length (qr_weights r) = n /\
  List.Forall (fun w => 0 < w) (qr_weights r) /\ sumR n (fun i => nth i (qr_weights r) 0) = sqrtPi.
Proof. intros n lam Q es Hn Hed Hes. exact (C29_weights n lam Q Hed Hn es Hes). Qed.
Print Assumptions C29_rule.

(** That constant is a little too large. *)
Theorem C29_constant : 5 / 10 ^ 11 < sqrtPi / sqrt PI - 1 < 6 / 10 ^ 11.
Proof. exact sqrt_constant. Qed.
Print Assumptions C29_constant.

(** The two-point rule, and a cubic. *)
Example C29_case : eigendecomposition 2 (findHermiteJacobi 2) lam2 Q2 /\ (length [1; 2; 3; 4] <= 2 * 2)%nat.
Proof. split; [exact two_point_rule|cbn; lia]. Qed.

(** C30: a belief integrated with a one-point rule is its value at the centre
    times sqrt(2 pi) sigma, apart from the constant used for sqrt(pi). *)
Theorem C30_one_point : forall es lam Q,
  es (findHermiteJacobi 1) = (lam, Q) -> eigendecomposition 1 (findHermiteJacobi 1) lam Q ->
  forall i x, 0 < if_sigma i ->
  if_evaluate i (rule_initialize es 1) x
  = if_function i (insert (if_over i) x (findConditionalMean i x)) + ln (sqrt 2 * sqrtPi * if_sigma i).
Proof. exact one_point. Qed.
Print Assumptions C30_one_point.

(** Integrated over one item after the other, a belief gives Laplace's
    approximation for its normal approximation, whatever is stored in between, as
    long as it is right at the mean of the normal approximation. *)
Theorem C30_laplace : forall inverse determinant isProper store es lam Q,
  es (findHermiteJacobi 1) = (lam, Q) -> eigendecomposition 1 (findHermiteJacobi 1) lam Q ->
  (forall d N f g H, nondegenerate d (no_mean N) (no_precision N) (no_variance N) ->
     fst (fst (store f g H N)) (no_mean N) = f (no_mean N)) ->
  forall b d,
  (forall k A, (k < d)%nat -> inverts inverse k A) ->
  nondegenerate d (no_mean (fb_normal b)) (no_precision (fb_normal b)) (no_variance (fb_normal b)) ->
  (forall k, (k < d)%nat ->
     isProper (Nat.iter k (fun N => normal_without inverse determinant N 0) (fb_normal b)) = true) ->
  belief_logNormalizingConstant inverse determinant isProper store (rule_initialize es 1) b
  = laplace d (fb_value b) (no_mean (fb_normal b)) (no_precision (fb_normal b)) + INR d * ln (sqrtPi / sqrt PI).
Proof. exact C30_main. Qed.
Print Assumptions C30_laplace.

Example C30_case : eigendecomposition 1 (findHermiteJacobi 1) [0] [[1]] /\
  belief_logNormalizingConstant inv_small (fun _ => 1) (fun _ => true) unchanged (rule_initialize es1 1) tilted_belief
  = 0 + INR 2 / 2 * ln (2 * PI) - 1 / 2 * ln 3 + INR 2 * ln (sqrtPi / sqrt PI).
Proof.
  split; [exact one_point_rule|].
  rewrite (C30_laplace inv_small (fun _ => 1) (fun _ => true) unchanged es1 [0] [[1]] eq_refl one_point_rule
             (fun _ _ _ _ _ _ => eq_refl) tilted_belief 2 inv_small_below tilted_nondegenerate (fun _ _ => eq_refl)).
  unfold laplace. f_equal. f_equal; [f_equal|].
  - cbn [fb_value tilted_belief fb_normal no_mean tilted]. unfold normal_evaluate, vdot, mvmul, vsub, map2, tilted. cbn. lra.
  - do 2 f_equal. unfold det, entry. cbn. field.
Qed.
