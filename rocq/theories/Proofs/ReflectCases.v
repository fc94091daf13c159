(** A small case for C75. *)
From Coq Require Import List Reals Lia Lra Arith Bool.
From Verif Require Import Model.Base Model.Mixed Model.Vectors Model.MultiNormal Model.Quadrature
  Model.IntegratedFunction Model.Margin Spec.GLMMSpec Spec.MatrixSpec Spec.HermiteSpec Spec.LaplaceSpec Spec.ReflectSpec
  Proofs.NormalMain Proofs.ReflectStep Proofs.ReflectChain Proofs.NormalCases Proofs.QuadratureCases.
Import ListNotations.
Local Open Scope R_scope.

Definition es2 : rmat -> rvec * rmat := fun _ => (lam2, Q2).
Lemma tilted_value y : length y = 2%nat -> normal_evaluate tilted y = 0 - quad 2 (no_precision tilted) (no_mean tilted) y / 2.
Proof. intros Ly. rewrite (evaluate_quad tilted 2 (proj1 tilted_inverse) eq_refl y Ly). cbn [no_normalizer tilted]. lra. Qed.
Lemma C75_case_main : eigendecomposition 2 (findHermiteJacobi 2) lam2 Q2 /\
  (exists I, integral (fun t => exp (normal_evaluate tilted [t; 1])) I /\ 0 < I /\
    if_evaluate tilted_integrated (rule_initialize es2 2) [1] < ln I + ln (sqrtPi / sqrt PI)) /\
  (exists I, iterated 2 (fun y => exp (normal_evaluate tilted y)) I /\ 0 < I /\
    belief_logNormalizingConstant inv_small (fun _ => 1) (fun _ => true) unchanged (rule_initialize es2 2) tilted_belief
    < ln I + INR 2 * ln (sqrtPi / sqrt PI)).
Proof.
  split; [exact two_point_rule|]. split.
  - destruct (C75_main 2 lam2 Q2 two_point_rule ltac:(lia) es2 eq_refl inv_small (fun _ => 1) (fun _ => true) 0 1 0
      (normal_evaluate tilted) (normal_evaluateDerivative tilted) (normal_evaluateSecondDerivative tilted) tilted
      ltac:(lia) eq_refl tilted_inverse tilted_symmetric ltac:(unfold entry; cbn; lra) ltac:(apply inverts_1; lra) tilted_value [1] eq_refl)
      as (c & I & C & HI & PI0 & E1 & E2 & _).
    exists I. split; [exact HI|]. split; [exact PI0|].
    match type of E1 with ?a <= _ => assert (N : a <> 0) end.
    { intros Z. apply E2 in Z. pose proof (proj2 (C c) eq_refl 1) as K0.
      unfold quad, sumR, entry in K0. cbn in K0. cbn in Z. assert (c = 0) by lra. subst c. lra. }
    unfold tilted_integrated. lra.
  - destruct (C75_chain inv_small (fun _ => 1) (fun _ => true) unchanged 2 lam2 Q2 es2 two_point_rule ltac:(lia) eq_refl
      (fun _ _ _ _ _ _ _ _ => eq_refl) tilted_belief 2 0 inv_small_below tilted_nondegenerate (fun _ _ => eq_refl) tilted_value)
      as (I & HI & PI0 & L & E).
    exists I. split; [exact HI|]. split; [exact PI0|]. specialize (E ltac:(lia)).
    destruct L as [L|L]; [exact L|]. exfalso. pose proof (proj1 E L) as L'. clear L. rename L' into L. specialize (L 0%nat 1%nat ltac:(lia) ltac:(lia) ltac:(lia)). revert L. unfold entry. cbn. lra.
Qed.
