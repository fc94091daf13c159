(** The sparse store of a function with the signs of some arguments changed. *)
From Coq Require Import List Arith ZArith Bool Lia Reals Lra Classical.
From Verif Require Import Model.Base Model.SparseGrid Model.Vectors Model.MultiNormal Model.SparseStore Spec.GLMMSpec Spec.MatrixSpec Spec.StoreSpec Spec.GridSpec Spec.NodalSpec
  Spec.FramesSpec Spec.SymmetrySpec Spec.SymmetryStoreSpec
  Proofs.ListLemmas Proofs.GLMMLemmas Proofs.VectorLemmas Proofs.SumLemmas Proofs.StoreMain Proofs.SignMain Proofs.MirrorMain Proofs.SplineLemmas Proofs.SymmetryMain.
From Verif Require Spec.FactorSpec Proofs.BasisMain Proofs.CheckedMain.
Import ListNotations.
Local Open Scope R_scope.

(** * Square roots are unique *)
Lemma form_nonneg n Q x : FactorSpec.positive_definite n Q -> 0 <= FactorSpec.form n Q x.
Proof.
  intros H. destruct (classic (exists i, (i < n)%nat /\ x i <> 0)) as [E|E]; [left; now apply H|]. right. symmetry.
  assert (Z : forall i, (i < n)%nat -> x i = 0) by (intros i Hi; destruct (Req_dec (x i) 0) as [|N]; [auto|exfalso; apply E; eauto]).
  unfold FactorSpec.form. rewrite (sumR_ext n _ (fun _ => 0)); [apply sumR_zero|]. intros i Hi. rewrite (sumR_ext n _ (fun _ => 0)); [apply sumR_zero|].
  intros j Hj. rewrite Z by auto. ring.
Qed.
Lemma sumR_nonneg n f : (forall i, (i < n)%nat -> 0 <= f i) -> 0 <= sumR n f.
Proof. intros H. rewrite <- (sumR_zero n). apply sumR_le. exact H. Qed.
Lemma sumR_zero_each n f : (forall i, (i < n)%nat -> 0 <= f i) -> sumR n f = 0 -> forall i, (i < n)%nat -> f i = 0.
Proof.
  revert f. induction n as [|n IH]; intros f H E i Hi; [lia|]. rewrite sumR_last in E.
  pose proof (sumR_nonneg n f ltac:(auto)) as P. pose proof (H n ltac:(lia)) as P'.
  destruct (Nat.eq_dec i n) as [->|N]; [lra|]. apply IH; [auto|lra|lia].
Qed.
Lemma root_unique d P S1 S2 : square d S1 -> square d S2 -> symmetric d S1 -> symmetric d S2 -> FactorSpec.positive_definite d S1 -> FactorSpec.positive_definite d S2 ->
  (forall i j, (i < d)%nat -> (j < d)%nat -> row_col d S1 S1 i j = entry P i j) -> (forall i j, (i < d)%nat -> (j < d)%nat -> row_col d S2 S2 i j = entry P i j) -> S1 = S2.
Proof.
  intros Q1 Q2 Y1 Y2 P1 P2 E1 E2. set (D := fun i j => entry S1 i j - entry S2 i j).
  assert (DS : forall i j, (i < d)%nat -> (j < d)%nat -> D i j = D j i) by (intros i j Hi Hj; unfold D; rewrite (Y1 i j), (Y2 i j) by auto; ring).
  assert (Z : forall j i, (j < d)%nat -> (i < d)%nat -> sumR d (fun k => entry S1 j k * D k i) + sumR d (fun k => D j k * entry S2 k i) = 0).
  { intros j i Hj Hi. rewrite <- sumR_plus. specialize (E1 j i Hj Hi). specialize (E2 j i Hj Hi). unfold row_col in *.
    rewrite (sumR_ext d _ (fun k => entry S1 j k * entry S1 k i - entry S2 j k * entry S2 k i)) by (intros k Hk; unfold D; ring). rewrite sumR_minus. lra. }
  assert (T : sumR d (fun i => FactorSpec.form d S1 (D i)) + sumR d (fun j => FactorSpec.form d S2 (D j)) = 0).
  { replace (sumR d (fun i => FactorSpec.form d S1 (D i))) with (sumR d (fun i => sumR d (fun j => D i j * sumR d (fun k => entry S1 j k * D k i)))).
    replace (sumR d (fun j => FactorSpec.form d S2 (D j))) with (sumR d (fun i => sumR d (fun j => D i j * sumR d (fun k => D j k * entry S2 k i)))).
    - rewrite <- sumR_plus. rewrite (sumR_ext d _ (fun _ => 0)); [apply sumR_zero|]. intros i Hi. rewrite <- sumR_plus. rewrite (sumR_ext d _ (fun _ => 0)); [apply sumR_zero|].
      intros j Hj. rewrite <- Rmult_plus_distr_l, Z by auto. ring.
    - rewrite sumR_swap. apply sumR_ext. intros j Hj. unfold FactorSpec.form. rewrite sumR_swap with (n := d) (m := d). apply sumR_ext. intros i Hi. rewrite <- sumR_scal. apply sumR_ext.
      intros k Hk. rewrite (DS i j) by auto. ring.
    - apply sumR_ext. intros i Hi. unfold FactorSpec.form. apply sumR_ext. intros j Hj. rewrite <- sumR_scal. apply sumR_ext. intros k Hk. rewrite (DS k i) by auto. ring. }
  assert (T1 : sumR d (fun i => FactorSpec.form d S1 (D i)) = 0).
  { pose proof (sumR_nonneg d (fun i => FactorSpec.form d S1 (D i)) (fun i _ => form_nonneg d S1 (D i) P1)).
    pose proof (sumR_nonneg d (fun i => FactorSpec.form d S2 (D i)) (fun i _ => form_nonneg d S2 (D i) P2)). lra. }
  apply (mat_ext d); auto. intros i j Hi Hj. destruct (Req_dec (D i j) 0) as [E|N]; [unfold D in E; lra|exfalso].
  pose proof (sumR_zero_each d _ (fun i _ => form_nonneg d S1 (D i) P1) T1 i Hi) as F0. cbv beta in F0. assert (0 < FactorSpec.form d S1 (D i)) by (apply P1; eauto). lra.
Qed.

Section Signs.
Variable d : nat.
Hypothesis Hd : (0 < d)%nat.
Variable s : list R.
Hypothesis Ls : length s = d.
Hypothesis Fs : List.Forall sign s.
Notation F := (flip s).
Notation FM := (flip_matrix s).
Let flen := flip_len d s Ls.
Lemma fnth u i : length u = d -> nth i (F u) 0 = nth i s 0 * nth i u 0.
Proof. intros L. apply flip_nth. congruence. Qed.
Lemma ff u : length u = d -> F (F u) = u.
Proof. intros L. apply flip_flip; [congruence|exact Fs]. Qed.
Lemma fm_square A : square d A -> square d (FM A).
Proof.
  intros [LA RA]. split; [unfold flip_matrix; rewrite map_length, combine_length; lia|]. intros i Hi. rewrite (nth_flip_matrix d s Ls) by auto.
  rewrite map_length. apply flen. now apply RA.
Qed.
Lemma fm_entry A i j : square d A -> (i < d)%nat -> (j < d)%nat -> entry (FM A) i j = nth i s 0 * (nth j s 0 * entry A i j).
Proof.
  intros [LA RA] Hi Hj. unfold entry. rewrite (nth_flip_matrix d s Ls) by auto. rewrite (nth_map_lt _ _ _ _ 0) by (rewrite flen; auto).
  rewrite fnth by auto. reflexivity.
Qed.
Lemma flip_vadd u v : length u = d -> length v = d -> F (vadd u v) = vadd (F u) (F v).
Proof. intros Lu Lv. exact (flip_plus d s Ls u v Lu Lv). Qed.
Lemma flip_vsub u v : length u = d -> length v = d -> F (vsub u v) = vsub (F u) (F v).
Proof.
  intros Lu Lv. assert (L := vsub_length u v d Lu Lv). apply (vec_ext _ _ d); [now apply flen|apply vsub_length; now apply flen|]. intros i Hi.
  rewrite fnth by auto. rewrite !(nth_vsub i _ _ d) by (auto; now apply flen). rewrite !fnth by auto. ring.
Qed.
Lemma flip_vscale c u : length u = d -> F (vscale c u) = vscale c (F u).
Proof.
  intros Lu. assert (L : length (vscale c u) = d) by now rewrite vscale_length. apply (vec_ext _ _ d); [now apply flen|rewrite vscale_length; now apply flen|]. intros i Hi.
  rewrite fnth by auto. rewrite !nth_vscale, fnth by auto. ring.
Qed.
Lemma flip_vneg u : length u = d -> F (vneg u) = vneg (F u).
Proof.
  intros Lu. assert (L : length (vneg u) = d) by now rewrite vneg_length. apply (vec_ext _ _ d); [now apply flen|rewrite vneg_length; now apply flen|]. intros i Hi.
  rewrite fnth by auto. rewrite !nth_vneg, fnth by auto. ring.
Qed.
Lemma flip_vdot u v : length u = d -> length v = d -> vdot (F u) (F v) = vdot u v.
Proof.
  intros Lu Lv. rewrite !(vdot_sum _ _ d) by (auto; now apply flen). apply sumR_ext. intros i Hi. rewrite !fnth by auto.
  replace (nth i s 0 * nth i u 0 * (nth i s 0 * nth i v 0)) with (nth i s 0 * nth i s 0 * (nth i u 0 * nth i v 0)) by ring. rewrite (sign_sq d s Ls Fs) by auto. ring.
Qed.
Lemma mvlen A v : square d A -> length (mvmul A v) = d.
Proof. intros H. rewrite mvmul_length. apply H. Qed.
Lemma fm_mvmul A v : square d A -> length v = d -> mvmul (FM A) (F v) = F (mvmul A v).
Proof.
  intros QA Lv. assert (QF := fm_square A QA). apply (vec_ext _ _ d); [now apply mvlen|apply flen; now apply mvlen|]. intros i Hi.
  rewrite fnth by now apply mvlen. rewrite !(nth_mvmul d) by (auto; now apply flen). rewrite <- sumR_scal. apply sumR_ext. intros j Hj.
  rewrite fm_entry, fnth by auto. replace (nth i s 0 * (nth j s 0 * entry A i j) * (nth j s 0 * nth j v 0)) with (nth j s 0 * nth j s 0 * (nth i s 0 * (entry A i j * nth j v 0))) by ring.
  rewrite (sign_sq d s Ls Fs) by auto. ring.
Qed.
Lemma vmlen A v : square d A -> length (vmmul v A) = d.
Proof. intros H. now apply CheckedMain.vmmul_length. Qed.
Lemma vm_nth A v j : square d A -> length v = d -> (j < d)%nat -> nth j (vmmul v A) 0 = sumR d (fun i => nth i v 0 * entry A i j).
Proof. intros [LA RA] Lv Hj. now apply (proj2 (vmmul_spec d d A v LA Lv Hd RA)). Qed.
Lemma fm_vmmul A v : square d A -> length v = d -> vmmul (F v) (FM A) = F (vmmul v A).
Proof.
  intros QA Lv. assert (QF := fm_square A QA). apply (vec_ext _ _ d); [now apply vmlen|apply flen; now apply vmlen|]. intros j Hj.
  rewrite fnth by now apply vmlen. rewrite !vm_nth by (auto; now apply flen). rewrite <- sumR_scal. apply sumR_ext. intros i Hi.
  rewrite fm_entry, fnth by auto. replace (nth i s 0 * nth i v 0 * (nth i s 0 * (nth j s 0 * entry A i j))) with (nth i s 0 * nth i s 0 * (nth j s 0 * (nth i v 0 * entry A i j))) by ring.
  rewrite (sign_sq d s Ls Fs) by auto. ring.
Qed.
Lemma fm_madd A C : square d A -> square d C -> FM (madd A C) = madd (FM A) (FM C).
Proof.
  intros QA QC. assert (Q1 := fm_square A QA). assert (Q2 := fm_square C QC). assert (Q3 := madd_square d A C QA QC).
  apply (mat_ext d); [now apply fm_square|now apply madd_square|]. intros i j Hi Hj. rewrite fm_entry by auto. rewrite !(entry_madd d) by auto. rewrite !fm_entry by auto. ring.
Qed.
Lemma fm_msub A C : square d A -> square d C -> FM (msub A C) = msub (FM A) (FM C).
Proof.
  intros QA QC. assert (Q1 := fm_square A QA). assert (Q2 := fm_square C QC). assert (Q3 := msub_square d A C QA QC).
  apply (mat_ext d); [now apply fm_square|now apply msub_square|]. intros i j Hi Hj. rewrite fm_entry by auto. rewrite !(entry_msub d) by auto. rewrite !fm_entry by auto. ring.
Qed.
Lemma fm_mscale c A : square d A -> FM (mscale c A) = mscale c (FM A).
Proof.
  intros QA. assert (Q1 := fm_square A QA). assert (Q3 := mscale_square d c A QA).
  apply (mat_ext d); [now apply fm_square|now apply mscale_square|]. intros i j Hi Hj. rewrite fm_entry by auto. rewrite !entry_mscale. rewrite !fm_entry by auto. ring.
Qed.
Lemma fm_mtranspose A : square d A -> FM (mtranspose A) = mtranspose (FM A).
Proof.
  intros QA. assert (Q1 := fm_square A QA). assert (Q3 := mtranspose_square d A QA Hd).
  apply (mat_ext d); [now apply fm_square|now apply mtranspose_square|]. intros i j Hi Hj. rewrite fm_entry by auto. rewrite !(entry_mtranspose d) by auto. rewrite !fm_entry by auto. ring.
Qed.
Lemma mneg_square A : square d A -> square d (map vneg A).
Proof. intros [LA RA]. split; [now rewrite map_length|]. intros i Hi. rewrite (nth_map_lt _ _ _ _ []) by lia. rewrite vneg_length. auto. Qed.
Lemma mneg_entry A i j : square d A -> (i < d)%nat -> entry (map vneg A) i j = - entry A i j.
Proof. intros [LA RA] Hi. unfold entry. rewrite (nth_map_lt _ _ _ _ []) by lia. apply nth_vneg. Qed.
Lemma fm_mneg A : square d A -> FM (map vneg A) = map vneg (FM A).
Proof.
  intros QA. assert (Q1 := fm_square A QA). assert (Q3 := mneg_square A QA).
  apply (mat_ext d); [now apply fm_square|now apply mneg_square|]. intros i j Hi Hj. rewrite fm_entry by auto. rewrite !mneg_entry by auto. rewrite !fm_entry by auto. ring.
Qed.
Lemma id_square : square d (midentity d).
Proof. unfold midentity. split; [now rewrite map_length, seq_length|]. intros i Hi. rewrite BasisMain.nth_map_seq by auto. now rewrite map_length, seq_length. Qed.
Lemma id_entry i j : (i < d)%nat -> (j < d)%nat -> entry (midentity d) i j = if Nat.eqb i j then 1 else 0.
Proof. intros Hi Hj. unfold entry, midentity. now rewrite !BasisMain.nth_map_seq. Qed.
Lemma fm_identity : FM (midentity d) = midentity d.
Proof.
  assert (Q := id_square). apply (mat_ext d); [now apply fm_square|auto|]. intros i j Hi Hj. rewrite fm_entry, !id_entry by auto.
  destruct (Nat.eqb_spec i j) as [->|]; [|ring]. rewrite Rmult_1_r. now apply (sign_sq d s Ls Fs).
Qed.
Lemma mm_square A C : square d A -> square d C -> square d (mmul A C).
Proof. intros QA QC. apply CheckedMain.mmul_square; auto. apply QA. Qed.
Lemma mm_row A C i : square d A -> (i < d)%nat -> nth i (mmul A C) [] = vmmul (nth i A []) C.
Proof. intros [LA RA] Hi. unfold mmul. rewrite (nth_map_lt _ _ _ _ []) by lia. reflexivity. Qed.
Lemma mm_entry A C i j : square d A -> square d C -> (i < d)%nat -> (j < d)%nat -> entry (mmul A C) i j = row_col d A C i j.
Proof. intros QA QC Hi Hj. unfold entry at 1. rewrite mm_row by auto. now rewrite vm_nth by (auto; now apply QA). Qed.
Lemma fm_row_col A C i j : square d A -> square d C -> (i < d)%nat -> (j < d)%nat ->
  row_col d (FM A) (FM C) i j = nth i s 0 * (nth j s 0 * row_col d A C i j).
Proof.
  intros QA QC Hi Hj. unfold row_col. rewrite <- !sumR_scal. apply sumR_ext. intros k Hk. rewrite !fm_entry by auto.
  replace (nth i s 0 * (nth k s 0 * entry A i k) * (nth k s 0 * (nth j s 0 * entry C k j))) with (nth k s 0 * nth k s 0 * (nth i s 0 * (nth j s 0 * (entry A i k * entry C k j)))) by ring.
  rewrite (sign_sq d s Ls Fs) by auto. ring.
Qed.
Lemma fm_mmul A C : square d A -> square d C -> FM (mmul A C) = mmul (FM A) (FM C).
Proof.
  intros QA QC. assert (Q1 := fm_square A QA). assert (Q2 := fm_square C QC). assert (Q3 := mm_square A C QA QC).
  apply (mat_ext d); [now apply fm_square|now apply mm_square|]. intros i j Hi Hj. rewrite fm_entry by auto. rewrite !mm_entry by auto. symmetry. now apply fm_row_col.
Qed.
Lemma fm_mnorm A : square d A -> mnorm (FM A) = mnorm A.
Proof.
  intros QA. unfold mnorm. f_equal. f_equal. assert (QF := fm_square A QA). apply (nth_ext _ _ 0 0); [rewrite !map_length; now rewrite (proj1 QA), (proj1 QF)|].
  intros i Hi. rewrite map_length, (proj1 QF) in Hi. rewrite !(nth_map_lt _ _ _ _ []) by (rewrite ?(proj1 QA), ?(proj1 QF); auto).
  rewrite !(vdot_sum _ _ d) by (now apply QA || now apply QF). apply sumR_ext. intros j Hj. fold (entry (FM A) i j). fold (entry A i j). rewrite fm_entry by auto.
  replace (nth i s 0 * (nth j s 0 * entry A i j) * (nth i s 0 * (nth j s 0 * entry A i j))) with (nth i s 0 * nth i s 0 * (nth j s 0 * nth j s 0) * (entry A i j * entry A i j)) by ring.
  rewrite !(sign_sq d s Ls Fs) by auto. ring.
Qed.
Lemma fm_inverse A C : are_inverse d A C -> are_inverse d (FM A) (FM C).
Proof.
  intros (QA & QC & H). split; [now apply fm_square|]. split; [now apply fm_square|]. intros i j Hi Hj. destruct (H i j Hi Hj) as [H1 H2].
  rewrite !fm_row_col, H1, H2 by auto. assert (U : nth i s 0 * (nth j s 0 * unit_entry i j) = unit_entry i j).
  { unfold unit_entry. destruct (Nat.eqb_spec i j) as [->|]; [|ring]. rewrite Rmult_1_r. now apply (sign_sq d s Ls Fs). }
  now rewrite U.
Qed.
Lemma fm_positive A : square d A -> FactorSpec.positive_definite d A -> FactorSpec.positive_definite d (FM A).
Proof.
  intros QA H x (i & Hi & N). replace (FactorSpec.form d (FM A) x) with (FactorSpec.form d A (fun j => nth j s 0 * x j)).
  - apply H. exists i. split; [exact Hi|]. intros E. apply Rmult_integral in E. destruct E as [E|E]; [|auto]. pose proof (sign_sq d s Ls Fs i Hi) as Q. rewrite E in Q. lra.
  - unfold FactorSpec.form. apply sumR_ext. intros j Hj. apply sumR_ext. intros k Hk. rewrite fm_entry by auto. ring.
Qed.
Lemma fm_roots P S T S' T' : square d P -> positive_roots d P S T -> positive_roots d (FM P) S' T' -> S' = FM S /\ T' = FM T.
Proof.
  intros QP ((I1 & Y1 & E1) & P1) ((I2 & Y2 & E2) & P2). assert (QS : square d S) by apply I1. assert (QS' : square d S') by apply I2.
  assert (ES : S' = FM S).
  { apply (root_unique d (FM P)); auto; try (now apply fm_square); try (now apply fm_positive).
    - intros i j Hi Hj. rewrite !fm_entry by auto. rewrite (Y1 i j) by auto. ring.
    - intros i j Hi Hj. rewrite fm_row_col, E1, fm_entry by auto. reflexivity. }
  split; [exact ES|]. apply (BasisMain.inverse_unique d S'); [exact I2|]. rewrite ES. now apply fm_inverse.
Qed.

(** * Modifiers *)
Lemma fm_solve solve A v : square d A -> length v = d -> (exists C, are_inverse d A C) -> finds_solution solve d A v -> finds_solution solve d (FM A) (F v) ->
  length (solve A v) = d /\ solve (FM A) (F v) = F (solve A v).
Proof.
  intros QA Lv (C & I) S1 S2. assert (QC : square d C) by apply I.
  assert (X : solves_system d A v (mvmul C v)).
  { split; [now apply mvlen|]. intros i Hi. rewrite <- (nth_mvmul d A _ i QA (mvlen C v QC) Hi). now rewrite (mvmul_inverse d A C v I Lv). }
  assert (L1 := S1 (ex_intro _ _ X)).
  assert (X' : solves_system d (FM A) (F v) (F (solve A v))).
  { destruct L1 as [L1 L2]. split; [now apply flen|]. intros i Hi. assert (QF := fm_square A QA). rewrite <- (nth_mvmul d _ _ i QF (flen _ L1) Hi).
    rewrite fm_mvmul by auto. rewrite fnth by now apply mvlen. rewrite (nth_mvmul d) by auto. rewrite L2 by auto. now rewrite fnth. }
  assert (L2 := S2 (ex_intro _ _ X')). split; [apply L1|].
  assert (Un : forall M N w x y, are_inverse d M N -> solves_system d M w x -> solves_system d M w y -> x = y).
  { intros M N w x y IM [Lx Hx] [Ly Hy]. assert (QM : square d M) by apply IM. assert (IM' : are_inverse d N M) by (destruct IM as (a & b & c); split; [auto|split; [auto|intros i j Hi Hj; destruct (c i j Hi Hj); auto]]).
    rewrite <- (mvmul_inverse d N M x IM' Lx), <- (mvmul_inverse d N M y IM' Ly). f_equal.
    apply (vec_ext _ _ d); [now apply mvlen|now apply mvlen|]. intros i Hi. rewrite !(nth_mvmul d) by auto. now rewrite Hx, Hy. }
  exact (Un (FM A) (FM C) (F v) _ _ (fm_inverse A C I) L2 X').
Qed.
Definition flip_quadratic (q : quadratic) : quadratic := mkQuadratic (F (qu_b q)) (FM (qu_A q)).
Lemma fq_value q w : length (qu_b q) = d -> square d (qu_A q) -> length w = d -> quadratic_value (flip_quadratic q) (F w) = quadratic_value q w.
Proof.
  intros Lb QA Lw. unfold quadratic_value, flip_quadratic. cbn [qu_b qu_A]. assert (L := vsub_length w (qu_b q) d Lw Lb).
  rewrite <- flip_vsub by auto. rewrite fm_mvmul by auto. apply flip_vdot; [auto|now apply mvlen].
Qed.
Lemma fq_second q w w' : length (qu_b q) = d -> square d (qu_A q) -> quadratic_secondDerivative (flip_quadratic q) w' = FM (quadratic_secondDerivative q w).
Proof.
  intros Lb QA. unfold quadratic_secondDerivative, flip_quadratic. cbn [qu_b qu_A]. assert (QT := mtranspose_square d _ QA Hd).
  rewrite fm_madd by auto. now rewrite fm_mtranspose.
Qed.
Lemma sd_square q w : square d (qu_A q) -> square d (quadratic_secondDerivative q w).
Proof. intros QA. apply madd_square; [auto|now apply mtranspose_square]. Qed.
Lemma fq_derivative q w : length (qu_b q) = d -> square d (qu_A q) -> length w = d -> quadratic_derivative (flip_quadratic q) (F w) = F (quadratic_derivative q w).
Proof.
  intros Lb QA Lw. unfold quadratic_derivative. assert (L := vsub_length w (qu_b q) d Lw Lb). pose proof (fq_second q w w Lb QA) as E. unfold quadratic_secondDerivative in E. rewrite E.
  unfold flip_quadratic. cbn [qu_b]. rewrite <- flip_vsub by auto. apply fm_vmmul; [now apply (sd_square q w)|auto].
Qed.
Lemma fq_dlen q w : square d (qu_A q) -> length (quadratic_derivative q w) = d.
Proof. intros QA. apply vmlen. now apply (sd_square q w). Qed.

Section Store.
Variables (solve : rmat -> rvec -> rvec) (operatorSqrt operatorInverseSqrt : rmat -> rmat).
Variable n : mnormal.
Notation m := (no_mean n).
Notation P := (no_precision n).
Hypothesis Lm : length m = d.
Hypothesis QP : square d P.
Variables (f f' : rvec -> R) (f1 f1' : rvec -> rvec) (f2 f2' : rvec -> rmat).
Hypothesis L1 : length (f1 m) = d.
Hypothesis Q2 : square d (f2 m).
Hypothesis Ef : forall y, length y = d -> f' y = f (F y).
Hypothesis E1 : f1' (F m) = F (f1 m).
Hypothesis E2 : f2' (F m) = FM (f2 m).
Notation n' := (flip_normal s n).
Notation A := (half_difference n f2).
Notation v := (difference n f1).
Hypothesis Inv : (exists C, are_inverse d A C) \/ forall i j, (i < d)%nat -> (j < d)%nat -> entry A i j = 0.
Hypothesis Sol : finds_solution solve d A v.
Hypothesis Sol' : finds_solution solve d (FM A) (F v).
Lemma A_square : square d A.
Proof. apply mscale_square, msub_square; [auto|]. unfold normal_evaluateSecondDerivative. now apply mneg_square. Qed.
Lemma v_len : length v = d.
Proof. unfold difference, normal_evaluateDerivative. apply vsub_length; [auto|now apply vmlen]. Qed.
Lemma A_flip : half_difference n' f2' = FM A.
Proof.
  unfold half_difference, flip_normal, normal_evaluateSecondDerivative. cbn [no_mean no_precision]. assert (QN := mneg_square P QP). rewrite E2, <- fm_mneg, <- fm_msub, <- fm_mscale by (auto; now apply msub_square). reflexivity.
Qed.
Lemma v_flip : difference n' f1' = F v.
Proof.
  unfold difference, flip_normal, normal_evaluateDerivative. cbn [no_mean no_precision]. assert (Ld := vsub_length m m d Lm Lm).
  rewrite E1, <- flip_vsub, <- flip_vneg by auto. rewrite fm_vmmul by (rewrite ?vneg_length; auto). symmetry. apply flip_vsub; [auto|now apply vmlen].
Qed.
Lemma modifier_flip : let q := find_modifier solve f1 f2 n in
  find_modifier solve f1' f2' n' = flip_quadratic q /\ length (qu_b q) = d /\ square d (qu_A q).
Proof.
  assert (QA := A_square). assert (Lv := v_len). intros q. unfold q, find_modifier. cbn zeta. pose proof A_flip as EA. pose proof v_flip as Ev. unfold half_difference, difference in *.
  cbn [flip_normal no_mean] in *. set (dv := vsub (f1 m) _) in *. set (dv' := vsub (f1' (F m)) _) in *. set (H := msub (f2 m) _) in *. set (H' := msub (f2' (F m)) _) in *.
  unfold quadratic_initialize. rewrite flen, Lm by auto. assert (Hl : Nat.ltb 0 d = true) by (apply Nat.ltb_lt; auto). rewrite Hl. rewrite EA, Ev, fm_mnorm by auto.
  destruct (Rlt_dec 0 (mnorm (mscale (- (1 / 2)) H))) as [N|N].
  - destruct Inv as [I|Z].
    + destruct (fm_solve solve _ _ QA Lv I Sol Sol') as [LS ES]. rewrite ES. cbn [qu_b qu_A]. unfold flip_quadratic. cbn [qu_b qu_A].
      split; [|split; [|exact QA]].
      * f_equal. rewrite flip_vadd, flip_vscale by (rewrite ?vscale_length; auto). reflexivity.
      * apply vadd_length; [auto|now rewrite vscale_length].
    + exfalso. revert N. assert (EZ : mscale (- (1 / 2)) H = mzero d).
      { apply (mat_ext d); auto.
        - unfold mzero. split; [apply repeat_length|]. intros i Hi. rewrite nth_repeat_lt by auto. apply repeat_length.
        - intros i j Hi Hj. rewrite Z by auto. unfold entry, mzero. rewrite nth_repeat_lt by auto. symmetry. now apply nth_repeat_lt. }
      rewrite EZ. unfold mnorm. assert (S0 : forall a, fold_right Rplus 0 (map (fun row => vdot row row) (repeat (repeat 0 d) a)) = 0).
      { induction a as [|a IH]; [reflexivity|]. cbn [repeat map fold_right]. rewrite IH. rewrite (vdot_sum _ _ d) by apply repeat_length.
        rewrite (sumR_ext d _ (fun _ => 0)); [rewrite sumR_zero; ring|]. intros i Hi. rewrite nth_repeat_lt by auto. ring. }
      unfold mzero. rewrite S0, sqrt_0. lra.
  - cbn [qu_b qu_A]. unfold flip_quadratic. cbn [qu_b qu_A]. auto.
Qed.

Variables (b : basis) (k : nat) (D : R -> Prop) (xk : nat -> nat -> R) (phi phi1 phi2 : nat -> nat -> R -> R).
Hypothesis TB : total_basis b k D xk phi.
Hypothesis NB : nodal k xk phi.
Hypothesis SB : smooth_basis b k D phi phi1 phi2.
Hypothesis MB : mirrored k xk phi.
Hypothesis R1 : positive_roots d P (operatorSqrt P) (operatorInverseSqrt P).
Hypothesis R2 : positive_roots d (FM P) (operatorSqrt (FM P)) (operatorInverseSqrt (FM P)).
Notation to_z y := (mvmul (operatorSqrt P) (vsub y m)).
Lemma store_flip : exists st st',
  store_from_normal solve operatorSqrt operatorInverseSqrt f f1 f2 n b = Ok st /\
  store_from_normal solve operatorSqrt operatorInverseSqrt f' f1' f2' n' b = Ok st' /\
  forall y, length y = d -> List.Forall D (to_z (F y)) -> List.Forall D (F (to_z (F y))) -> exists v w A,
    store_evaluate st (F y) b = Ok v /\ store_evaluate st' y b = Ok v /\
    store_evaluateDerivative st (F y) b = Ok w /\ store_evaluateDerivative st' y b = Ok (F w) /\
    store_evaluateSecondDerivative st (F y) b = Ok A /\ store_evaluateSecondDerivative st' y b = Ok (FM A).
Proof.
  destruct modifier_flip as (Eq & Lb & QA). set (q := find_modifier solve f1 f2 n) in *.
  destruct (fm_roots P _ _ _ _ QP R1 R2) as [ES ET]. set (S := operatorSqrt P) in *. set (T := operatorInverseSqrt P) in *.
  assert (QS : square d S) by apply R1. assert (QT : square d T) by apply R1. assert (QSt := mtranspose_square d S QS Hd).
  assert (Hl : Nat.ltb 0 d = true) by (apply Nat.ltb_lt; auto). assert (Lm' := flen m Lm).
  set (tg := fun z => f (vadd m (mvmul T z)) + quadratic_value q (vadd m (mvmul T z)) + 1 / 2 * vdot z z).
  set (tg' := fun z => f' (vadd (F m) (mvmul (FM T) z)) + quadratic_value (flip_quadratic q) (vadd (F m) (mvmul (FM T) z)) + 1 / 2 * vdot z z).
  assert (Et : forall z, length z = d -> tg' z = tg (F z)).
  { intros z Lz. assert (Lf := flen z Lz). unfold tg, tg'. set (u := vadd m (mvmul T (F z))). assert (Lu : length u = d) by (apply vadd_length; [auto|now apply mvlen]).
    assert (Eu : vadd (F m) (mvmul (FM T) z) = F u).
    { unfold u. rewrite flip_vadd by (auto; now apply mvlen). f_equal. rewrite <- fm_mvmul by auto. now rewrite ff. }
    rewrite Eu, fq_value, Ef, ff, flip_vdot by auto. reflexivity. }
  destruct (C85_grid_gen b k D xk phi phi1 phi2 TB NB SB MB d tg tg' s Ls Fs Et) as (g & g' & Eg & Eg' & H).
  exists (mkStore q (mkTransform g m T S)), (mkStore (flip_quadratic q) (mkTransform g' (F m) (FM T) (FM S))). split; [|split].
  - unfold store_from_normal, transform_from_normal. fold q. rewrite Lm, Hl. fold S T. cbn zeta. change (grid_of tg d b) with (grid_of (fun z => f (vadd m (mvmul T z)) + quadratic_value q (vadd m (mvmul T z)) + 1 / 2 * vdot z z) d b) in Eg.
    rewrite Eg. reflexivity.
  - unfold store_from_normal, transform_from_normal. rewrite Eq. cbn [flip_normal no_mean no_precision]. rewrite Lm', Hl, ES, ET. cbn zeta.
    change (grid_of tg' d b) with (grid_of (fun z => f' (vadd (F m) (mvmul (FM T) z)) + quadratic_value (flip_quadratic q) (vadd (F m) (mvmul (FM T) z)) + 1 / 2 * vdot z z) d b) in Eg'.
    rewrite Eg'. reflexivity.
  - intros y Ly D1 D2. assert (Lf := flen y Ly). set (z := mvmul S (vsub (F y) m)) in *. assert (Ld := vsub_length (F y) m d Lf Lm). assert (Lz : length z = d) by now apply mvlen.
    assert (Lz' := flen z Lz).
    assert (Ez : mvmul (FM S) (vsub y (F m)) = F z).
    { unfold z. rewrite <- fm_mvmul by auto. f_equal. rewrite flip_vsub by auto. now rewrite ff. }
    destruct (H (F z) Lz' D2 ltac:(now rewrite ff)) as (a & w & M & H1 & H2 & H3 & H4 & H5 & H6 & Lw & QM). rewrite ff in H1, H3, H5 by auto.
    unfold store_evaluate, store_evaluateDerivative, store_evaluateSecondDerivative, transform_interpolate, transform_interpolateDerivative, transform_interpolateSecondDerivative, to_grid.
    cbn [ss_modifier ss_stored st_grid st_shift st_scale st_inverseScale]. rewrite Ez. fold z. rewrite H1, H2, H3, H4, H5, H6. cbn [bind].
    eexists. eexists. eexists. split; [reflexivity|]. split; [|split; [reflexivity|split; [|split; [reflexivity|]]]].
    + f_equal. rewrite flip_vdot by auto. rewrite <- (ff y Ly) at 1. now rewrite fq_value.
    + f_equal. assert (Lwz := vsub_length w z d Lw Lz). rewrite <- (ff y Ly) at 1. rewrite fq_derivative by auto. rewrite <- fm_mtranspose, <- flip_vsub, fm_mvmul by auto.
      symmetry. apply flip_vsub; [now apply mvlen|now apply fq_dlen].
    + f_equal. rewrite (fq_second q (F y) y) by auto. rewrite Lz, Lz'. assert (QI := id_square). assert (QMI := msub_square d M _ QM QI).
      rewrite fm_msub by (try apply mm_square; auto; try apply mm_square; auto; now apply sd_square). f_equal.
      rewrite !fm_mmul by (auto; now apply mm_square). rewrite fm_mtranspose, fm_msub, fm_identity by auto. reflexivity.
Qed.
End Store.
End Signs.
