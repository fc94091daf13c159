(** The second-order term where a mean is clipped. *)
From Coq Require Import String List Reals ZArith Bool Arith Lia Lra.
From Coquelicot Require Import Coquelicot.
From Verif Require Import Model.Base Model.Family Model.GLMM Model.SplitFrame Model.Frames Model.Vectors Model.IS Model.HOL Spec.Numbers Spec.FamilySpec Spec.GLMMSpec Spec.SplitSpec Spec.FramesSpec Spec.ISSpec Spec.HOLSpec
  Proofs.FamilyLemmas Proofs.FamilyMain Proofs.GLMMLemmas Proofs.SumLemmas Proofs.SplitMain Proofs.ISMain Proofs.ISFamily Proofs.FramesCases Proofs.HOLLemmas Proofs.HOLMain.
From Verif Require Spec.MatrixSpec.
Import ListNotations.
Local Open Scope R_scope.

(** 1 - mean. *)
Definition hs : R := / 400000000.
Definition heta : R := ln (/ hs - 1).
Lemma hs_pos : 0 < hs < 1. Proof. unfold hs. lra. Qed.
Lemma exp_heta : exp heta = / hs - 1.
Proof. unfold heta. apply exp_ln. unfold hs. rewrite Rinv_inv. lra. Qed.
Lemma exp_heta2 : exp (2 * heta) = (/ hs - 1) ^ 2.
Proof. replace (2 * heta) with (heta + heta) by ring. rewrite exp_plus, exp_heta. ring. Qed.
Lemma exp_heta3 : exp (3 * heta) = (/ hs - 1) ^ 3.
Proof. replace (3 * heta) with (heta + heta + heta) by ring. rewrite !exp_plus, exp_heta. ring. Qed.
Lemma hm : mn0 Logit heta = 1 - hs /\ mn1 Logit heta = hs * (1 - hs) /\ mn2 Logit heta = hs * (1 - hs) * (2 * hs - 1) /\
  mn3 Logit heta = hs * (1 - hs) * (1 - 6 * hs + 6 * hs ^ 2) /\ mn4 Logit heta = hs * (1 - hs) * (2 * hs - 1) * (1 - 12 * hs + 12 * hs ^ 2).
Proof.
  pose proof hs_pos. unfold mn0, mn1, mn2, mn3, mn4, logit_mean, logit_mean1, logit_mean2, logit_mean3, logit_mean4. cbv zeta.
  cbn [nZ nadd nsub nmul ndiv nopp nexp npow Rnum N]. unfold powerRZ. 
  repeat match goal with |- context [Pos.to_nat ?p] => let n := eval compute in (Pos.to_nat p) in change (Pos.to_nat p) with n end.
  rewrite exp_heta2, exp_heta3, exp_heta. repeat split; field; lra.
Qed.
Lemma he1 : entry Logit 1 0 1 heta = - (1 - hs) /\ entry Logit 2 0 1 heta = - (hs * (1 - hs)) /\ entry Logit 3 0 1 heta = - (hs * (1 - hs) * (2 * hs - 1)) /\ entry Logit 4 0 1 heta = - (hs * (1 - hs) * (1 - 6 * hs + 6 * hs ^ 2)).
Proof.
  pose proof hs_pos. destruct hm as [M0 [M1 [M2 [M3 M4]]]]. unfold entry, faa. rewrite M0, M1, M2, M3, M4. unfold binomial_d1, binomial_d2, binomial_d3, binomial_d4.
  cbn [nZ nadd nsub nmul ndiv nopp npow Rnum N]. unfold powerRZ.
  repeat match goal with |- context [Pos.to_nat ?p] => let n := eval compute in (Pos.to_nat p) in change (Pos.to_nat p) with n end.
  repeat split; field; lra.
Qed.
Lemma hc : clip (mn0 Logit heta) = 1 - 4 * hs.
Proof. destruct hm as [-> _]. rewrite clip_high by (unfold tiny, hs; lra). unfold tiny, hs. lra. Qed.
Lemma hec : entry_c Logit 3 0 1 heta = - (2 / 64) * (1 - hs) ^ 3 + 3 / 16 * (1 - hs) ^ 2 * (1 - 2 * hs) - (1 - hs) * (1 - 6 * hs + 6 * hs ^ 2) / 4 /\
  entry_c Logit 4 0 1 heta = - (6 / 256) * (1 - hs) ^ 4 + 12 / 64 * (1 - hs) ^ 3 * (1 - 2 * hs) - (1 - hs) ^ 2 * (4 * (1 - 6 * hs + 6 * hs ^ 2) + 3 * (1 - 2 * hs) ^ 2) / 16 + (1 - hs) * (1 - 2 * hs) * (1 - 12 * hs + 12 * hs ^ 2) / 4.
Proof.
  pose proof hs_pos. destruct hm as [M0 [M1 [M2 [M3 M4]]]]. unfold entry_c, faa. rewrite check1_clip, hc, M1, M2, M3, M4. unfold binomial_d1, binomial_d2, binomial_d3, binomial_d4.
  cbn [nZ nadd nsub nmul ndiv nopp npow Rnum N]. unfold powerRZ.
  repeat match goal with |- context [Pos.to_nat ?p] => let n := eval compute in (Pos.to_nat p) in change (Pos.to_nat p) with n end.
  assert (1 - 4 * hs <> 0) by (unfold hs; lra). split; field; lra.
Qed.

Definition hG : R := / (1 + hs * (1 - hs)).
Lemma hG_bounds : 999999 / 1000000 < hG < 1.
Proof. unfold hG, hs. split; [|rewrite <- Rinv_1; apply Rinv_lt_contravar; lra]. replace (999999 / 1000000) with (/ (1000000 / 999999)) by (field). apply Rinv_lt_contravar; lra. Qed.
Lemma hq : - (938 / 10000) < entry_c Logit 3 0 1 heta < - (93 / 1000) /\ - (24 / 1000) < entry_c Logit 4 0 1 heta < - (234 / 10000).
Proof. destruct hec as [-> ->]. unfold hs. split; lra. Qed.

Theorem C52_clipped_refuted_main : exists solve n m r y w theta beta H G u_hat f1 f2 f3 f4,
  fits n m r y w theta beta /\ solves solve (nrandom m) n H /\ MatrixSpec.are_inverse (nrandom m) H G /\ length u_hat = nrandom m /\
  derivatives4 (nrandom m) (fun u => - log_density n logistic m y w beta theta u) f1 f2 f3 f4 /\
  (forall i, (i < nrandom m)%nat -> f1 i u_hat = 0) /\ (forall i j, (i < nrandom m)%nat -> (j < nrandom m)%nat -> f2 i j u_hat = at_ H i j) /\
  exists v, find_epsilon_1 solve "binomial" "logit" (theta ++ beta) m r u_hat H = Ok v /\ v < - (1 / 1000) /\
    Rabs (second_order (nrandom m) (at_ G) (fun i j k => f3 i j k u_hat) (fun i j k l => f4 i j k l u_hat)) < / 10 ^ 7.
Proof.
  set (b := heta + (1 - hs)). pose proof (case_h_fits b) as F.
  pose proof (tower_g Logit logistic 1 case_h case_hr [0] [1] [1] [b] (or_introl (conj eq_refl (fun t => eq_refl))) F) as T.
  pose proof hs_pos as HS. pose proof hG_bounds as HG.
  assert (HN : hG <> 0) by lra.
  assert (SV : solves (fun _ B => [[hG * at_ B 0 0]]) 1 1 [[/ hG]]).
  { intros B _. split; [split; [reflexivity|intros row [<-|[]]; reflexivity]|]. intros [|i] [|j] Hi Hj; try lia. rewrite sumR_S. unfold sumR, MatrixSpec.entry. cbn. field. exact HN. }
  assert (IV : MatrixSpec.are_inverse 1 [[/ hG]] [[hG]]).
  { split; [split; [reflexivity|intros [|i] Hi; [reflexivity|lia]]|]. split; [split; [reflexivity|intros [|i] Hi; [reflexivity|lia]]|].
    intros [|i] [|j] Hi Hj; try lia. unfold MatrixSpec.row_col. rewrite !sumR_S. unfold sumR, MatrixSpec.entry, MatrixSpec.unit_entry. cbn. split; field; exact HN. }
  set (uh := [- (1 - hs)]).
  assert (PE : predictor case_h [b] [1] uh 0 = heta) by (unfold uh; rewrite case_h_predictor; unfold b; ring).
  assert (LE : forall k, (k < 1)%nat -> lin (nrandom case_h) (fun k => sumR (length [b]) (fun j => at2 (gd_X _ (whole (frame_of case_h case_hr))) k j * nth j [b] 0)) (fun k i => LZ (whole (frame_of case_h case_hr)) [1] i k) k uh = heta).
  { intros [|k] Hk; [|lia]. rewrite <- (predictor_lin 1 case_h case_hr [0] [1] [1] [b] F uh 0 eq_refl). exact PE. }
  destruct he1 as [E1 [E2 [E3 E4]]].
  do 15 eexists. split; [exact F|]. split; [exact SV|]. split; [exact IV|]. split; [instantiate (1 := uh); reflexivity|]. split; [exact T|].
  change (nrandom case_h) with 1%nat in *. split; [|split].
  - intros [|i] Hi; [|lia]. unfold g1, part. rewrite sumR_S. rewrite LE by lia. unfold sumR. cbn [seq map fold_right nth]. rewrite E1, case_h_LZ. unfold uh. cbn [nth]. ring.
  - intros [|i] [|j] Hi Hj; try lia. unfold g2, part. rewrite sumR_S. rewrite LE by lia. unfold sumR. cbn [seq map fold_right nth]. rewrite E2, case_h_LZ.
    unfold MatrixSpec.entry, MatrixSpec.unit_entry. cbn [nth Nat.eqb]. unfold hG. rewrite Rinv_inv. ring.
  - eexists. split; [exact (epsilon_eval Logit 1 case_h case_hr [0] [1] [1] [b] F _ [[/ hG]] [[hG]] uh SV IV eq_refl "binomial" "logit" eq_refl)|].
    change (nrandom case_h) with 1%nat in *.
    assert (S1 : forall f : nat -> R, sumR 1 f = f 0%nat) by (intros f; rewrite sumR_S; unfold sumR; cbn; ring). rewrite !S1, PE. cbn [nth].
    rewrite case_h_LZ. change (at_ [[hG]] 0 0) with hG. destruct hq as [Q3 Q4]. set (q3 := entry_c Logit 3 0 1 heta) in *. set (q4 := entry_c Logit 4 0 1 heta) in *. split.
    + assert (hG ^ 3 < 1) by (cbn; nra). assert (q3 ^ 2 < (938 / 10000) ^ 2) by (assert (0 < (q3 + 938 / 10000) * (938 / 10000 - q3)) by (apply Rmult_lt_0_compat; lra); lra). assert (9999 / 10000 < hG ^ 2) by (cbn; nra). assert (0 < hG ^ 3) by (apply pow_lt; lra).
      assert (q3 ^ 2 * hG ^ 3 < (938 / 10000) ^ 2) by (assert (0 <= q3 ^ 2) by nra; nra). assert (- q4 * hG ^ 2 > 233 / 10000) by nra.
      match goal with |- ?x < _ => replace x with (- (1 / 8) * (- q4 * hG ^ 2) + 5 / 24 * (q3 ^ 2 * hG ^ 3)) by field end. lra.
    + unfold second_order, g3, g4, part. rewrite !S1. rewrite LE by lia. cbn [nth]. rewrite E3, E4, case_h_LZ. change (at_ [[hG]] 0 0) with hG.
      set (a := hs * (1 - hs) * (2 * hs - 1)). set (c := hs * (1 - hs) * (1 - 6 * hs + 6 * hs ^ 2)).
      assert (A : - / 10 ^ 8 < a < 0) by (unfold a, hs; lra). assert (C : 0 < c < / 10 ^ 8) by (unfold c, hs; lra).
      assert (0 < hG ^ 3 < 1) by (split; [apply pow_lt; lra|cbn; nra]). assert (0 < hG ^ 2 < 1) by (split; [apply pow_lt; lra|cbn; nra]).
      assert (0 <= a ^ 2 < / 10 ^ 8) by (cbn in *; nra). assert (0 <= a ^ 2 * hG ^ 3 < / 10 ^ 8) by (split; nra). assert (0 <= c * hG ^ 2 < / 10 ^ 8) by (split; nra).
      match goal with |- Rabs ?x < _ => replace x with (- (1 / 8) * (c * hG ^ 2) + 5 / 24 * (a ^ 2 * hG ^ 3)) by field end. apply Rabs_def1; cbn in *; lra.
Qed.

Lemma case_h_solves : solves (fun _ B => [[4 / 5 * at_ B 0 0]]) (nrandom case_h) 1 [[5 / 4]].
Proof.
  intros B _. split; [split; [reflexivity|intros row [<-|[]]; reflexivity]|]. intros [|i] [|j] Hi Hj; cbn in Hi; try lia. change (nrandom case_h) with 1%nat. rewrite sumR_S. unfold sumR, MatrixSpec.entry. cbn. field.
Qed.
Lemma case_h_inverse : MatrixSpec.are_inverse (nrandom case_h) [[5 / 4]] [[4 / 5]].
Proof.
  change (nrandom case_h) with 1%nat. split; [split; [reflexivity|intros [|i] Hi; [reflexivity|lia]]|]. split; [split; [reflexivity|intros [|i] Hi; [reflexivity|lia]]|].
  intros [|i] [|j] Hi Hj; try lia. unfold MatrixSpec.row_col. rewrite !sumR_S. unfold sumR, MatrixSpec.entry, MatrixSpec.unit_entry. cbn. split; field.
Qed.
Lemma case_h_inside : forall k, (k < 1)%nat -> tiny < logistic (predictor case_h [1 / 2] [1] [- (1 / 2)] k) < 1 - tiny.
Proof.
  intros [|k] Hk; [|lia]. rewrite case_h_predictor. replace (1 / 2 + - (1 / 2)) with 0 by ring. unfold logistic, tiny. rewrite Ropp_0, exp_0. lra.
Qed.

Lemma case_divergence : MatrixSpec.are_inverse 2 [[2; 1]; [1; 1]] [[1; -1]; [-1; 2]] /\ MatrixSpec.symmetric 2 [[2; 1]; [1; 1]] /\
  forall i, (i < 2)%nat -> nth i [2; 1] 0 - nth i [0; 0] 0 = sumR 2 (fun j => at_ [[2; 1]; [1; 1]] i j * nth j [1; 0] 0).
Proof.
  split; [|split].
  - split; [split; [reflexivity|intros [|[|i]] Hi; (reflexivity || lia)]|]. split; [split; [reflexivity|intros [|[|i]] Hi; (reflexivity || lia)]|].
    intros [|[|i]] [|[|j]] Hi Hj; try lia; unfold MatrixSpec.row_col; rewrite !sumR_S; unfold sumR, MatrixSpec.entry, MatrixSpec.unit_entry; cbn; split; ring.
  - intros [|[|i]] [|[|j]] Hi Hj; try lia; reflexivity.
  - intros [|[|i]] Hi; try lia; rewrite !sumR_S; unfold sumR, MatrixSpec.entry; cbn; ring.
Qed.
