(** A case for C77. *)
From Coq Require Import List Arith Reals Lia Lra.
From Verif Require Import Model.Base Model.Vectors Model.Divergence Spec.GLMMSpec Spec.MatrixSpec Spec.LaplaceSpec Spec.DivergenceSpec
  Proofs.GLMMLemmas Proofs.SumLemmas Proofs.DivergenceMain.
From Verif Require Proofs.JointCases.
Import ListNotations.
Local Open Scope R_scope.
Notation length := List.length.

(** The mean of a function of two numbers at six points around (1/3, 2/3). *)
Definition six (h : list R -> R) : R :=
  / 6 * (h [4 / 3; 5 / 3] + h [- 2 / 3; - 1 / 3] + h [4 / 3; 2 / 3] + h [- 2 / 3; 2 / 3] + h [1 / 3; 5 / 3] + h [1 / 3; - 1 / 3]).
Definition case_modulus (A : rmat) : R := ln (Rabs (det 2 (MatrixSpec.entry A))).

Ltac two i H := destruct i as [|[|i]]; [| |exfalso; clear -H; lia].
Ltac sums := unfold row_col, MatrixSpec.entry, unit_entry, sumR; cbn [seq map fold_right nth Nat.eqb].
Lemma two_square a b c d : square 2 [[a; b]; [c; d]].
Proof. split; [reflexivity|]. intros i Hi. two i Hi; reflexivity. Qed.
Lemma two_inverse a b c d a' b' c' d' : a * a' + b * c' = 1 -> a * b' + b * d' = 0 -> c * a' + d * c' = 0 -> c * b' + d * d' = 1 ->
  a' * a + b' * c = 1 -> a' * b + b' * d = 0 -> c' * a + d' * c = 0 -> c' * b + d' * d = 1 -> are_inverse 2 [[a; b]; [c; d]] [[a'; b']; [c'; d']].
Proof.
  intros. split; [apply two_square|]. split; [apply two_square|]. intros i j Hi Hj. two i Hi; two j Hj; split; sums; lra.
Qed.
Lemma square_pos x : x <> 0 -> 0 < x ^ 2.
Proof. intros H. rewrite <- Rsqr_pow2. now apply Rsqr_pos_lt. Qed.
Lemma two_pd a b d : 0 < a -> 0 < a * d - b * b -> positive_definite 2 [[a; b]; [b; d]].
Proof.
  intros Ha Hd v Lv (i & Hi & Hn). destruct v as [|x [|y [|]]]; try discriminate Lv. unfold quad. sums. cbn [repeat nth].
  assert (A : 0 < a * ((x - 0) * a * (x - 0) + ((x - 0) * b * (y - 0) + 0) + ((y - 0) * b * (x - 0) + ((y - 0) * d * (y - 0) + 0) + 0))).
  { match goal with |- 0 < ?e => replace e with ((a * x + b * y) ^ 2 + (a * d - b * b) * y ^ 2) by ring end.
    destruct (Req_dec y 0) as [->|Y].
    - two i Hi; cbn [nth] in Hn; [|now exfalso]. replace ((a * x + b * 0) ^ 2 + (a * d - b * b) * 0 ^ 2) with ((a * x) ^ 2) by ring. apply square_pos. apply Rmult_integral_contrapositive. lra.
    - pose proof (pow2_ge_0 (a * x + b * y)). pose proof (Rmult_lt_0_compat _ _ Hd (square_pos y Y)). lra. }
  apply (Rmult_lt_reg_l a); [exact Ha|]. rewrite Rmult_0_r. eapply Rlt_le_trans; [exact A|]. right. ring.
Qed.
Lemma C77_case_main : inverts 2 JointCases.inv_all /\ log_determinants 2 case_modulus /\ are_inverse 2 [[2; 1]; [1; 1]] [[1; - (1)]; [- (1); 2]] /\
  symmetric 2 [[2; 1]; [1; 1]] /\ positive_definite 2 [[2; 1]; [1; 1]] /\ square 2 [[- (1); 0]; [0; 0]] /\
  updated 2 [[1; - (1)]; [- (1); 2]] [[- (1); 0]; [0; 0]] [[2; - (1)]; [- (1); 2]] [[2 / 3; 1 / 3]; [1 / 3; 2 / 3]] [0; 1] [0; 0] [1 / 3; 2 / 3] /\
  symmetric 2 [[2 / 3; 1 / 3]; [1 / 3; 2 / 3]] /\ positive_definite 2 [[2 / 3; 1 / 3]; [1 / 3; 2 / 3]] /\
  expectation 2 [1 / 3; 2 / 3] [[2 / 3; 1 / 3]; [1 / 3; 2 / 3]] six /\
  find_laplace_divergence_2 JointCases.inv_all case_modulus 2 [0; 1] [[- (1); 0]; [0; 0]] [[2; 1]; [1; 1]] = 1 / 2 * (ln 3 - 1 / 9).
Proof.
  assert (HS : inverts 2 JointCases.inv_all). { intros A B H. now rewrite (JointCases.inv_all_small A 2 B H). }
  assert (HL : log_determinants 2 case_modulus) by (intros A; reflexivity).
  assert (IJ : are_inverse 2 [[2; 1]; [1; 1]] [[1; - (1)]; [- (1); 2]]) by (apply two_inverse; lra).
  assert (YV : symmetric 2 [[2; 1]; [1; 1]]) by (intros i j Hi Hj; two i Hi; two j Hj; reflexivity).
  assert (U : updated 2 [[1; - (1)]; [- (1); 2]] [[- (1); 0]; [0; 0]] [[2; - (1)]; [- (1); 2]] [[2 / 3; 1 / 3]; [1 / 3; 2 / 3]] [0; 1] [0; 0] [1 / 3; 2 / 3]).
  { split; [apply two_inverse; lra|]. split; [intros i j Hi Hj; two i Hi; two j Hj; sums; lra|]. split; [reflexivity|]. intros i Hi. two i Hi; sums; lra. }
  assert (YV2 : symmetric 2 [[2 / 3; 1 / 3]; [1 / 3; 2 / 3]]) by (intros i j Hi Hj; two i Hi; two j Hj; reflexivity).
  do 4 (split; [assumption|]). split; [apply two_pd; lra|]. split; [apply two_square|]. split; [exact U|]. split; [exact YV2|]. split; [apply two_pd; lra|]. split.
  - split.
    + intros. unfold six. lra.
    + intros f g H. unfold six. now rewrite !H by reflexivity.
    + unfold six. lra.
    + intros i Hi. two i Hi; unfold six; cbn [nth]; lra.
    + intros i j Hi Hj. two i Hi; two j Hj; unfold six; sums; lra.
  - rewrite (value_main JointCases.inv_all case_modulus 2 [0; 0] [0; 1] [1 / 3; 2 / 3] _ _ _ _ _ HS IJ eq_refl (two_square _ _ _ _) U YV2).
    unfold case_modulus, step. sums. unfold det, MatrixSpec.entry. cbn [nth].
    replace (2 * ((1 - 1 * 1 / 2) * 1)) with 1 by field. replace (2 / 3 * ((2 / 3 - 1 / 3 * (1 / 3) / (2 / 3)) * 1)) with (/ 3) by field.
    rewrite !Rabs_right by lra. rewrite ln_1, ln_Rinv by lra. simpl INR. field.
Qed.
