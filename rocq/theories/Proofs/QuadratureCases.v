(** Small cases for C29 and C30. *)
From Coq Require Import List Reals Lia Lra Arith Bool.
From Verif Require Import Model.Base Model.Mixed Model.Vectors Model.MultiNormal Model.Quadrature
  Model.IntegratedFunction Model.Margin Spec.GLMMSpec Spec.MatrixSpec Spec.HermiteSpec Spec.LaplaceSpec
  Proofs.NormalCases.
Import ListNotations.
Local Open Scope R_scope.

Definition half_root : R := sqrt (INR 1 / 2).
Lemma half_root_sq : half_root * half_root = 1 / 2.
Proof. unfold half_root. rewrite sqrt_sqrt; cbn [INR]; lra. Qed.
Definition lam2 : list R := [- half_root; half_root].
Definition Q2 : list (list R) := [[half_root; half_root]; [- half_root; half_root]].
Lemma two_point_rule : eigendecomposition 2 (findHermiteJacobi 2) lam2 Q2.
Proof.
  assert (E : findHermiteJacobi 2 = [[0; 0]; [half_root; 0]]) by reflexivity.
  rewrite E. pose proof half_root_sq as H.
  split; [reflexivity|split; [reflexivity|intros i Hi; small_index i; reflexivity]| |].
  - intros a b Ha Hb. small_index a; small_index b; unfold sumR, entry, unit_entry, Q2; cbn; lra.
  - intros a i Ha Hi. small_index a; small_index i; unfold sumR, entry, lower, Q2, lam2; cbn; unfold entry; cbn; lra.
Qed.

Definition es1 : rmat -> rvec * rmat := fun _ => ([0], [[1]]).
Lemma one_point_rule : eigendecomposition 1 (findHermiteJacobi 1) [0] [[1]].
Proof.
  assert (E : findHermiteJacobi 1 = [[0]]) by reflexivity.
  rewrite E. split; [reflexivity|split; [reflexivity|intros [|i] Hi; [reflexivity|lia]]| |].
  - intros [|a] [|b] Ha Hb; try lia. unfold sumR, entry, unit_entry; cbn; lra.
  - intros [|a] [|i] Ha Hi; try lia. unfold sumR, entry, lower; cbn; unfold entry; cbn; lra.
Qed.
Lemma tilted_nondegenerate : nondegenerate 2 (no_mean tilted) (no_precision tilted) (no_variance tilted).
Proof.
  split; [reflexivity|]. split; [exact tilted_inverse|]. split; [exact tilted_symmetric|].
  intros v Lv [i [Hi Hne]]. destruct v as [|a [|b [|]]]; try discriminate.
  unfold quad, sumR, entry. cbn. assert (a <> 0 \/ b <> 0) as [H|H] by (small_index i; auto).
  - apply Rsqr_pos_lt in H. unfold Rsqr in H. nra.
  - apply Rsqr_pos_lt in H. unfold Rsqr in H. nra.
Qed.
Lemma inv_small_below k A : (k < 2)%nat -> inverts inv_small k A.
Proof.
  intros Hk. destruct k as [|[|k]]; [| |lia].
  - intros B [[LA _] [[LB _] _]]. destruct A, B; try discriminate. reflexivity.
  - intros B H. pose proof H as [[LA RA] [[LB RB] E]].
    destruct A as [|ra [|]]; try discriminate. specialize (RA 0%nat ltac:(lia)). cbn in RA.
    destruct ra as [|a [|]]; try discriminate.
    apply (inverts_1 a); [|exact H].
    intros ->. destruct (E 0%nat 0%nat ltac:(lia) ltac:(lia)) as [E1 _]. revert E1. sums. intros. lra.
Qed.
Definition tilted_belief : fbelief :=
  mkFB (normal_evaluate tilted) (normal_evaluateDerivative tilted) (normal_evaluateSecondDerivative tilted) tilted.
Definition unchanged : storage := fun f g H _ => (f, g, H).
