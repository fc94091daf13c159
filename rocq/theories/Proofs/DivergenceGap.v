(** The divergence of normal distributions is not negative, and zero only if they are equal. *)
From Coq Require Import List Arith Reals Lia Lra.
From Verif Require Import Model.Base Model.Vectors Spec.GLMMSpec Spec.MatrixSpec Spec.LaplaceSpec Proofs.GLMMLemmas Proofs.SumLemmas Proofs.NormalMain Proofs.PosDef.
From Verif Require Proofs.LaplaceMain Proofs.ConditionalMain.
Import ListNotations.
Local Open Scope R_scope.
Notation length := List.length.

Lemma ln_gap x : 0 < x -> 0 <= x - 1 - ln x /\ (x - 1 - ln x = 0 -> x = 1).
Proof.
  intros Hx. destruct (Req_dec x 1) as [->|N]; [rewrite ln_1; split; [lra|reflexivity]|].
  assert (L : ln x <> 0) by (intros E; apply N; apply ln_inv; [exact Hx|lra|now rewrite ln_1]).
  pose proof (exp_ineq1 (ln x) L) as H. rewrite exp_ln in H by exact Hx. split; [lra|intros; lra].
Qed.
Lemma pd_of n P : positive_definite n P -> pd n (entry P).
Proof.
  intros H z (i & Hi & Zi). pose proof (H (map z (seq 0 n))) as Q. rewrite map_length, seq_length in Q. specialize (Q eq_refl).
  assert (NZ : forall k, (k < n)%nat -> nth k (map z (seq 0 n)) 0 = z k).
  { intros k Hk. rewrite (nth_indep _ 0 (z 0%nat)) by (now rewrite map_length, seq_length). rewrite map_nth, seq_nth by exact Hk. reflexivity. }
  rewrite LaplaceMain.quad_zero in Q by (now rewrite map_length, seq_length).
  unfold bil. rewrite (sumR_ext n _ (fun i0 => sumR n (fun j => nth i0 (map z (seq 0 n)) 0 * entry P i0 j * nth j (map z (seq 0 n)) 0))).
  - apply Q. exists i. split; [exact Hi|]. now rewrite NZ.
  - intros a Ha. apply sumR_ext. intros b Hb. now rewrite !NZ.
Qed.
Lemma nonzero_dec n (z : nat -> R) : (exists i, (i < n)%nat /\ z i <> 0) \/ (forall i, (i < n)%nat -> z i = 0).
Proof.
  induction n as [|n IH]; [right; intros; lia|]. destruct IH as [[i [Hi Zi]]|IH]; [left; exists i; split; [lia|exact Zi]|].
  destruct (Req_dec (z n) 0) as [E|E]; [right|left; exists n; split; [lia|exact E]]. intros i Hi. destruct (Nat.eq_dec i n) as [->|]; [exact E|]. apply IH. lia.
Qed.
(** The inverse is positive definite. *)
Lemma inverse_pd n V J : are_inverse n V J -> symmetric n V -> pd n (entry V) -> pd n (entry J).
Proof.
  intros I YV PV z (i & Hi & Zi). set (w := fun k => sumR n (fun j => entry J k j * z j)).
  assert (VW : forall k, (k < n)%nat -> sumR n (fun j => entry V k j * w j) = z k) by (intros k Hk; now apply inverse_apply).
  assert (E : bil n (entry J) z z = bil n (entry V) w w).
  { unfold bil. transitivity (sumR n (fun k => z k * w k)).
    - apply sumR_ext. intros k Hk. unfold w. rewrite <- sumR_scal. apply sumR_ext. intros. ring.
    - apply sumR_ext. intros k Hk. rewrite <- (VW k Hk) at 1. rewrite <- sumR_scal_r. apply sumR_ext. intros. ring. }
  rewrite E. apply PV. destruct (nonzero_dec n w) as [N|N]; [exact N|]. exfalso. apply Zi. rewrite <- (VW i Hi). rewrite (sumR_ext n _ (fun _ => 0)); [apply sumR_zero|].
  intros j Hj. rewrite N by exact Hj. ring.
Qed.

Definition gap (n : nat) (V V2 J : list (list R)) : R :=
  sumR n (fun i => sumR n (fun j => entry J i j * entry V2 j i)) - INR n + ln (det n (entry V)) - ln (det n (entry V2)).

Section Step.
Variables (n : nat) (V V2 J : list (list R)).
Hypothesis SV : square (S n) V.
Hypothesis YV : symmetric (S n) V.
Hypothesis PV : positive_definite (S n) V.
Hypothesis SV2 : square (S n) V2.
Hypothesis YV2 : symmetric (S n) V2.
Hypothesis PV2 : positive_definite (S n) V2.
Hypothesis I : are_inverse (S n) V J.
Let v := entry V 0 0.
Let a := entry V2 0 0.
Let Hv : 0 < v. Proof. exact (LaplaceMain.pivot_pos n V PV). Qed.
Let Ha : 0 < a. Proof. exact (LaplaceMain.pivot_pos n V2 PV2). Qed.
Let YJ : symmetric (S n) J. Proof. exact (ConditionalMain.inverse_symmetric _ _ _ I YV). Qed.
Let PJ : pd (S n) (entry J). Proof. exact (inverse_pd _ _ _ I YV (pd_of _ _ PV)). Qed.
Definition block : list (list R) := ConditionalMain.mat_of n (fun i j => entry J (S i) (S j)).
Lemma block_entry i j : (i < n)%nat -> (j < n)%nat -> entry block i j = entry J (S i) (S j).
Proof. intros. unfold block. now rewrite ConditionalMain.mat_of_entry. Qed.
Lemma J_first i : (i < S n)%nat -> sumR (S n) (fun j => entry J i j * entry V j 0) = unit_entry i 0.
Proof. intros Hi. destruct I as (_ & _ & H). apply (H i 0%nat Hi). lia. Qed.
Lemma block_inverse : are_inverse n (LaplaceMain.schur n V) block.
Proof.
  assert (A : forall i j, (i < n)%nat -> (j < n)%nat -> row_col n (LaplaceMain.schur n V) block i j = unit_entry i j).
  { intros i j Hi Hj. unfold row_col.
    rewrite (sumR_ext n _ (fun k => entry V (S i) (S k) * entry J (S k) (S j) - entry V (S i) 0 / v * (entry V 0 (S k) * entry J (S k) (S j)))).
    2: { intros k Hk. rewrite LaplaceMain.schur_entry, block_entry by assumption. fold v. field. lra. }
    rewrite sumR_minus, sumR_scal. destruct I as (_ & _ & H).
    destruct (H (S i) (S j) ltac:(lia) ltac:(lia)) as [E1 _]. destruct (H 0%nat (S j) ltac:(lia) ltac:(lia)) as [E2 _].
    unfold row_col in E1, E2. rewrite sumR_S in E1, E2. fold v in E2. replace (unit_entry 0 (S j)) with 0 in E2 by reflexivity.
    replace (unit_entry (S i) (S j)) with (unit_entry i j) in E1 by reflexivity.
    rewrite <- E1. replace (sumR n (fun k => entry V 0 (S k) * entry J (S k) (S j))) with (- (v * entry J 0 (S j))) by lra. field. lra. }
  split; [apply ConditionalMain.mat_of_square|]. split; [apply ConditionalMain.mat_of_square|]. intros i j Hi Hj. split; [now apply A|].
  replace (unit_entry i j) with (unit_entry j i) by (unfold unit_entry; now rewrite Nat.eqb_sym). rewrite <- (A j i Hj Hi). unfold row_col. apply sumR_ext. intros k Hk.
  rewrite (LaplaceMain.schur_symmetric n V YV PV j k) by assumption. rewrite !block_entry by assumption. rewrite (YJ (S k) (S i)) by lia. ring.
Qed.
Definition off (i : nat) : R := entry V2 i 0 / a - entry V i 0 / v.
Lemma off_form : bil (S n) (entry J) (fun i => entry V2 i 0 / a) (fun i => entry V2 i 0 / a) = bil (S n) (entry J) off off + / v.
Proof.
  set (y := fun i => entry V2 i 0 / a). set (u := fun i => entry V i 0 / v).
  assert (JU : forall i, (i < S n)%nat -> sumR (S n) (fun j => entry J i j * u j) = unit_entry i 0 / v).
  { intros i Hi. unfold u. rewrite (sumR_ext (S n) _ (fun j => (entry J i j * entry V j 0) * / v)) by (intros; unfold Rdiv; ring). rewrite sumR_scal_r, J_first by exact Hi. reflexivity. }
  assert (B : forall z, bil (S n) (entry J) z u = z 0%nat / v).
  { intros z. unfold bil. rewrite (sumR_ext (S n) _ (fun i => (z i / v) * unit_entry i 0)).
    - rewrite sumR_delta_r by lia. reflexivity.
    - intros i Hi. rewrite (sumR_ext (S n) _ (fun j => z i * (entry J i j * u j))) by (intros; ring). rewrite sumR_scal, JU by exact Hi. unfold Rdiv. ring. }
  assert (C : forall z, bil (S n) (entry J) u z = z 0%nat / v).
  { intros z. rewrite <- B. unfold bil. rewrite sumR_swap. apply sumR_ext. intros i Hi. apply sumR_ext. intros j Hj. rewrite (YJ j i) by assumption. ring. }
  assert (D : bil (S n) (entry J) off off = bil (S n) (entry J) y y - bil (S n) (entry J) y u - bil (S n) (entry J) u y + bil (S n) (entry J) u u).
  { unfold bil. rewrite <- !sumR_minus, <- sumR_plus. apply sumR_ext. intros i Hi. rewrite <- !sumR_minus, <- sumR_plus. apply sumR_ext. intros j Hj. unfold off. fold (y i) (y j) (u i) (u j). ring. }
  rewrite D, !B, C. unfold y, u. fold a v. field. lra.
Qed.
Lemma gap_step : gap (S n) V V2 J = a * bil (S n) (entry J) off off + (a / v - 1 - ln (a / v)) + gap n (LaplaceMain.schur n V) (LaplaceMain.schur n V2) block.
Proof.
  unfold gap. rewrite !LaplaceMain.det_schur. fold v a.
  assert (D1 : 0 < det n (entry (LaplaceMain.schur n V))).
  { apply LaplaceMain.det_pos; [apply ConditionalMain.mat_of_square|exact (LaplaceMain.schur_symmetric n V YV PV)|exact (LaplaceMain.schur_pd n V YV PV)]. }
  assert (D2 : 0 < det n (entry (LaplaceMain.schur n V2))).
  { apply LaplaceMain.det_pos; [apply ConditionalMain.mat_of_square|exact (LaplaceMain.schur_symmetric n V2 YV2 PV2)|exact (LaplaceMain.schur_pd n V2 YV2 PV2)]. }
  rewrite !ln_mult by assumption. rewrite S_INR. unfold Rdiv at 2. rewrite (ln_mult a (/ v)) by (try assumption; now apply Rinv_0_lt_compat). rewrite ln_Rinv by exact Hv.
  assert (T : sumR (S n) (fun i => sumR (S n) (fun j => entry J i j * entry V2 j i)) =
    a * bil (S n) (entry J) (fun i => entry V2 i 0 / a) (fun i => entry V2 i 0 / a) + sumR n (fun i => sumR n (fun j => entry block i j * entry (LaplaceMain.schur n V2) j i))).
  { set (sc := fun i j => entry V2 j i - entry V2 j 0 * entry V2 0 i / a).
    transitivity (a * bil (S n) (entry J) (fun i => entry V2 i 0 / a) (fun i => entry V2 i 0 / a) + sumR (S n) (fun i => sumR (S n) (fun j => entry J i j * sc i j))).
    - unfold bil. rewrite <- sumR_scal, <- sumR_plus. apply sumR_ext. intros i Hi. rewrite <- sumR_scal, <- sumR_plus. apply sumR_ext. intros j Hj.
      unfold sc. rewrite (YV2 0%nat i) by lia. field. lra.
    - f_equal. rewrite sumR_S. rewrite (sumR_ext (S n) (fun j => entry J 0 j * sc 0%nat j) (fun _ => 0)).
      2: { intros j Hj. unfold sc. fold a. field. lra. }
      rewrite sumR_zero, Rplus_0_l. apply sumR_ext. intros i Hi. rewrite sumR_S. replace (sc (S i) 0%nat) with 0 by (unfold sc; fold a; field; lra). rewrite Rmult_0_r, Rplus_0_l.
      apply sumR_ext. intros j Hj. rewrite block_entry, LaplaceMain.schur_entry by assumption. reflexivity. }
  rewrite T, off_form. field. lra.
Qed.
Lemma step_gap : (0 <= gap n (LaplaceMain.schur n V) (LaplaceMain.schur n V2) block /\
    (gap n (LaplaceMain.schur n V) (LaplaceMain.schur n V2) block = 0 -> forall i j, (i < n)%nat -> (j < n)%nat -> entry (LaplaceMain.schur n V2) i j = entry (LaplaceMain.schur n V) i j)) ->
  0 <= gap (S n) V V2 J /\ (gap (S n) V V2 J = 0 -> forall i j, (i < S n)%nat -> (j < S n)%nat -> entry V2 i j = entry V i j).
Proof.
  intros (IH1 & IH2). rewrite gap_step. pose proof (pd_nonneg _ _ off PJ) as Q. destruct (ln_gap (a / v)) as (L1 & L2); [now apply Rdiv_lt_0_compat|].
  pose proof (Rmult_le_pos _ _ (Rlt_le _ _ Ha) Q) as Q'. split; [lra|]. intros Z.
  assert (Z1 : a * bil (S n) (entry J) off off = 0) by lra. assert (Z2 : a / v = 1) by (apply L2; lra). assert (AV : a = v) by (apply (Rmult_eq_reg_r (/ v)); [rewrite Rinv_r by lra; exact Z2|apply Rinv_neq_0_compat; lra]).
  assert (B0 : bil (S n) (entry J) off off = 0) by (apply (Rmult_eq_reg_l a); lra).
  assert (Z3 : forall i, (i < S n)%nat -> entry V2 i 0 = entry V i 0).
  { intros i Hi. destruct (Req_dec (off i) 0) as [O|O].
    - unfold off in O. rewrite AV in O. apply (Rmult_eq_reg_r (/ v)); [unfold Rdiv in O; lra|apply Rinv_neq_0_compat; lra].
    - exfalso. pose proof (PJ off (ex_intro _ i (conj Hi O))). lra. }
  assert (Z4 := IH2 ltac:(lra)). intros i j Hi Hj. destruct i as [|i]; [rewrite (YV2 0%nat j), (YV 0%nat j) by lia; now apply Z3|].
  destruct j as [|j]; [now apply Z3|]. specialize (Z4 i j ltac:(lia) ltac:(lia)). rewrite !LaplaceMain.schur_entry in Z4 by lia. fold a v in Z4.
  rewrite AV, (Z3 (S i)), (YV2 0%nat (S j)), (Z3 (S j)), (YV (S j) 0%nat) in Z4 by lia. lra.
Qed.
End Step.

Lemma gap_nonneg n : forall V V2 J, square n V -> symmetric n V -> positive_definite n V -> square n V2 -> symmetric n V2 -> positive_definite n V2 -> are_inverse n V J ->
  0 <= gap n V V2 J /\ (gap n V V2 J = 0 -> forall i j, (i < n)%nat -> (j < n)%nat -> entry V2 i j = entry V i j).
Proof.
  induction n as [|n IH]; intros V V2 J SV YV PV SV2 YV2 PV2 I.
  - unfold gap. cbn. rewrite ln_1. split; [lra|intros; lia].
  - apply step_gap; try assumption. apply IH; try apply ConditionalMain.mat_of_square.
    + exact (LaplaceMain.schur_symmetric n V YV PV).
    + exact (LaplaceMain.schur_pd n V YV PV).
    + exact (LaplaceMain.schur_symmetric n V2 YV2 PV2).
    + exact (LaplaceMain.schur_pd n V2 YV2 PV2).
    + now apply block_inverse.
Qed.
