(** Small cases for C26-C28 and C47. *)
From Coq Require Import List Reals Lia Lra Arith Bool.
From Verif Require Import Model.Base Model.Mixed Model.Vectors Model.MultiNormal Model.Quadrature
  Model.IntegratedFunction Spec.GLMMSpec Spec.MatrixSpec Spec.Calculus Spec.RuleSpec
  Proofs.GLMMLemmas Proofs.VectorLemmas Proofs.SumLemmas Proofs.NormalMain Proofs.IntegratedMain
  Proofs.ConditionalMain.
Import ListNotations.
Local Open Scope R_scope.

(** Inverses of matrices of one and two rows. *)
Definition inv_small (m : rmat) : rmat :=
  match m with
  | [[a]] => [[/ a]]
  | [[a; b]; [c; d]] =>
      let det := a * d - b * c in [[d / det; - b / det]; [- c / det; a / det]]
  | _ => []
  end.

Ltac small_index i := destruct i as [|[|i]]; [| |exfalso; lia].
Ltac sums := unfold row_col, unit_entry, entry, sumR; cbn.

Lemma inverts_1 a : a <> 0 -> inverts inv_small 1 [[a]].
Proof.
  intros Ha B [_ [[LB RB] H]]. destruct B as [|r [|]]; try discriminate.
  specialize (RB 0%nat ltac:(lia)). cbn in RB. destruct r as [|b [|]]; try discriminate.
  destruct (H 0%nat 0%nat ltac:(lia) ltac:(lia)) as [E _]. revert E. sums. intros E.
  cbn. f_equal. f_equal. apply (Rmult_eq_reg_l a); auto. rewrite Rinv_r by auto. lra.
Qed.

(** A normal approximation with correlated components. *)
Definition tilted : mnormal := mkNormal [0; 0] [[2; 1]; [1; 2]] [[2 / 3; - (1 / 3)]; [- (1 / 3); 2 / 3]] 0.
Lemma tilted_inverse : are_inverse 2 (no_precision tilted) (no_variance tilted).
Proof.
  split; [|split]; [split; [reflexivity|intros i Hi; small_index i; reflexivity]..|].
  intros i j Hi Hj. small_index i; small_index j; split; sums; lra.
Qed.
Lemma tilted_symmetric : symmetric 2 (no_precision tilted).
Proof. intros i j Hi Hj. small_index i; small_index j; reflexivity. Qed.

Definition two_points : rule := mkRule [-1; 1] [1; 1].
Lemma two_points_weighted : weighted two_points.
Proof.
  split; [reflexivity|]. split; [repeat constructor; lra|]. apply Exists_cons_hd. lra.
Qed.

Definition tilted_integrated : ifun :=
  make_ifun inv_small (fun _ => 1) (fun _ => true) 0 (normal_evaluate tilted)
    (normal_evaluateDerivative tilted) (normal_evaluateSecondDerivative tilted) tilted.

Lemma tilted_smooth : smooth 2 (normal_evaluate tilted) (normal_evaluateDerivative tilted)
                             (normal_evaluateSecondDerivative tilted).
Proof.
  apply C47_main; [apply tilted_inverse|reflexivity|apply tilted_symmetric|lia].
Qed.
Lemma tilted_integrated_smooth : smooth 1 (if_evaluate tilted_integrated two_points)
  (if_evaluateDerivative tilted_integrated two_points) (if_evaluateSecondDerivative tilted_integrated two_points).
Proof.
  apply C26_made; auto using tilted_inverse, tilted_symmetric, tilted_smooth, two_points_weighted.
  - unfold entry. cbn. lra.
  - apply inverts_1. lra.
Qed.

Lemma tilted_centre : findConditionalMean tilted_integrated [1] = 1 / 2 /\
  conditional_mean 2 (no_precision tilted) (no_mean tilted) 0 (fun t => insert 0 [1] t) (- (1 / 2)).
Proof.
  split.
  - unfold findConditionalMean, tilted_integrated, make_ifun, initializeNormal. cbn.
    unfold vdot, mvmul, vsub, map2, vdot. cbn. field.
  - intros t. unfold quad, sumR, entry. cbn. field.
Qed.

(** Multiplying the first component by N(3, 1). *)
Definition shifted : mnormal := mkNormal [3] [[1]] [[1]] 0.
Lemma shifted_product : ~ exists c, forall x, length x = 2%nat ->
  normal_evaluate (multiplySubset inv_small (fun _ => 1) tilted shifted [0%nat]) x
  = normal_evaluate tilted x + normal_evaluate shifted (vsubset x [0%nat]) + c.
Proof.
  intros [c H].
  pose proof (H [0; 0] eq_refl) as H0. pose proof (H [0; 1] eq_refl) as H1.
  unfold multiplySubset, multiplySubsetInternal, normal_evaluate in *.
  cbn in H0, H1. unfold vdot, map2 in *. cbn in H0, H1. lra.
Qed.
Lemma shifted_ready : square 2 (no_precision tilted) /\ symmetric 2 (no_precision tilted) /\
  square 1 (no_precision shifted) /\ symmetric 1 (no_precision shifted) /\
  are_inverse 1 (madd (msubset (no_precision tilted) [0%nat]) (no_precision shifted)) [[1 / 3]] /\
  inverts inv_small 1 (madd (msubset (no_precision tilted) [0%nat]) (no_precision shifted)).
Proof.
  split; [apply tilted_inverse|]. split; [apply tilted_symmetric|].
  assert (S1 : forall a, square 1 [[a]]).
  { intros a. split; [reflexivity|]. intros i Hi. destruct i as [|i]; [reflexivity|lia]. }
  split; [apply S1|]. split; [intros i j Hi Hj; destruct i as [|i], j as [|j]; try lia; reflexivity|].
  change (madd _ _) with [[2 + 1]]. split; [|apply inverts_1; lra].
  split; [apply S1|]. split; [apply S1|]. intros i j Hi Hj. destruct i as [|i], j as [|j]; try lia.
  split; sums; lra.
Qed.
