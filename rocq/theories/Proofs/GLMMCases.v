From Coq Require Import List Reals ZArith Lia Lra Arith.
From Coquelicot Require Import Coquelicot.
From Verif Require Import Model.Base Model.Family Model.GLMM Spec.Numbers Spec.FamilySpec Spec.GLMMSpec
  Proofs.FamilyMain Proofs.FamilyCases Proofs.GLMMLemmas Proofs.GLMMMain.
Import ListNotations.
Local Open Scope R_scope.

(** (1 + x | g) for one group with two observations. *)
Definition correlated : glmm_data Rnum :=
  mkData Rnum [0; 1]%Z [[1]; [1]] 1 [[1; 1]; [0; 3]] 2
    (mkSparse Rnum 2 [[(0%nat, 1)]; [(0%nat, 0); (1%nat, 1)]]) [0; 1; 2]%Z [1; 0] [1; 1].

Lemma correlated_refuted : exists d, shaped d /\ length (gd_items _ d) = 2%nat /\
  (forall theta, length theta = 3%nat -> in_range (length (theta : list R)) (gd_Lind _ d)) /\
  glmm_new Rnum d = UB.
Proof.
  exists correlated.
  assert (Sh : shaped correlated).
  { constructor; try reflexivity; cbn; intros row H; intuition (subst; reflexivity). }
  split; [exact Sh|]. split; [reflexivity|]. split.
  - intros theta ->. cbn. intros i H. repeat (destruct H as [<-|H]); try lia. destruct H.
  - apply (C35_new_main _ Sh). intros H. specialize (H 2%Z). cbn in H. intuition lia.
Qed.

(** Two groups with a random intercept, three observations. *)
Definition two_groups : glmm_data Rnum :=
  mkData Rnum [3; 5]%Z [[1]; [1]; [4]] 1 [[1; 1; 0]; [0; 0; 1]] 3
    (mkSparse Rnum 2 [[(0%nat, 1)]; [(1%nat, 1)]]) [0; 0]%Z [1; 0; 1] [1; 1; 2].

Lemma two_shaped : shaped two_groups.
Proof. constructor; try reflexivity; cbn; intros row H; intuition (subst; reflexivity). Qed.

Lemma eta_two b t x0 x1 k : (k < 3)%nat ->
  eta two_groups [b] [t] [x0; x1] k = (if Nat.eqb k 2 then 4 else 1) * b + t * (if Nat.eqb k 2 then x1 else x0).
Proof.
  intros H. destruct k as [|[|[|k]]]; [| | |lia];
    cbv [eta sumR LZ Lam at2 places two_groups gd_Lambdat gd_Lind gd_Zt gd_X sp_cols length seq map fold_right
         nth combine concat app filter fst snd Nat.eqb andb Z.to_nat]; ring.
Qed.

Lemma two_groups_case : shaped two_groups /\ in_range (length [2]) (gd_Lind _ two_groups) /\
  exists c0 c, glmm_new Rnum two_groups = Ok c0 /\
    foldM (run_gcall two_groups)
      [(Evaluate, [1; 2], mkParams Rnum [5] [1] (mkFamily Logit Binomial));
       (Derivative, [0; 0], mkParams Rnum [7] [3] (mkFamily Logit Binomial))] c0 = Ok c /\
    eta two_groups [3] [2] [1; 10] 0 = 3 + 2 * 1 /\ eta two_groups [3] [2] [1; 10] 2 = 3 * 4 + 2 * 10.
Proof.
  split; [exact two_shaped|]. split; [cbn; intros i [<-|[<-|[]]]; lia|].
  destruct (proj1 (C35_new_main _ two_shaped)) as [c0 E0]; [cbn; intros i [<-|[<-|[]]]; lia|].
  set (p1 := mkParams Rnum [5] [1] (mkFamily Logit Binomial)).
  set (p2 := mkParams Rnum [7] [3] (mkFamily Logit Binomial)).
  assert (R1 : in_range (length (p_theta _ p1)) (gd_Lind _ two_groups)) by (cbn; intros i [<-|[<-|[]]]; lia).
  assert (R2 : in_range (length (p_theta _ p2)) (gd_Lind _ two_groups)) by (cbn; intros i [<-|[<-|[]]]; lia).
  assert (C0 := new_consistent _ _ _ E0).
  assert (E1 := evaluate_value two_groups two_shaped p1 R1 eq_refl Logit eq_refl _ (fun t => eq_refl) c0 [1; 2] C0 eq_refl).
  assert (C1 := evaluate_keeps _ Reqb_eq _ _ _ _ _ _ C0 E1).
  destruct (grad_value two_groups two_shaped p2 R2 eq_refl Logit eq_refl _ [0; 0] C1 eq_refl) as [g [E2 _]].
  exists c0. eexists. split; [exact E0|]. split.
  - cbn [foldM run_gcall].
    match goal with |- context [glmm_evaluate Rnum ?a ?b ?c ?d] =>
      replace (glmm_evaluate Rnum a b c d) with (glmm_evaluate Rnum two_groups c0 [1; 2] p1) by reflexivity end.
    rewrite E1. cbn [bind snd].
    match goal with |- context [glmm_evaluateDerivative Rnum ?a ?b ?c ?d] =>
      change (glmm_evaluateDerivative Rnum a b c d) with (glmm_evaluateDerivative Rnum two_groups b [0; 0] p2) end.
    rewrite E2. cbn [bind snd]. reflexivity.
  - rewrite !eta_two by lia. cbn [Nat.eqb]. split; ring.
Qed.

Lemma unclipped_case : inverse_link Logit logistic /\
  forall k, (k < gd_numObs _ two_groups)%nat ->
    tiny < logistic (eta two_groups [0] [2] [0; 1 / 2] k) < 1 - tiny.
Proof.
  split; [left; split; reflexivity|]. intros k Hk. cbn in Hk. rewrite eta_two by exact Hk.
  destruct k as [|[|[|k]]]; [| | |lia]; cbn [Nat.eqb].
  - replace (1 * 0 + 2 * 0) with 0 by ring. unfold logistic. rewrite Ropp_0, exp_0.
    replace (/ (1 + 1)) with (1/2) by field. exact half_inside.
  - replace (1 * 0 + 2 * 0) with 0 by ring. unfold logistic. rewrite Ropp_0, exp_0.
    replace (/ (1 + 1)) with (1/2) by field. exact half_inside.
  - replace (4 * 0 + 2 * (1 / 2)) with 1 by field. exact logistic_1_inside.
Qed.
