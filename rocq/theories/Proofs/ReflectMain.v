(** C75: what the reflected centre (C27) does to the integral of a normal density. *)
From Coq Require Import List Reals Lia Lra Arith.
From Coquelicot Require Import Coquelicot.
From Verif Require Import Model.Base Model.Vectors Model.MultiNormal Model.Quadrature Model.IntegratedFunction Spec.GLMMSpec Spec.MatrixSpec Spec.HermiteSpec
  Proofs.GLMMLemmas Proofs.VectorLemmas Proofs.SumLemmas Proofs.NormalMain Proofs.ConditionalMain Proofs.GaussMain Proofs.HermiteMain Proofs.SymmetricRule.
Import ListNotations.
Local Open Scope R_scope.

(** * Moments of the rule *)
Lemma coef_nonneg k : forall j, 0 <= coef k j.
Proof.
  induction k as [|k IH]; intros j; [cbn; destruct (Nat.eqb j 0); lra|].
  rewrite coef_S. apply Rplus_le_le_0_compat; [destruct j; cbn [prev]; [lra|apply IH]|].
  apply Rmult_le_pos; [|apply IH]. apply Rmult_le_pos; [apply pos_INR|lra].
Qed.
Lemma coef_diag k : coef k k = 1.
Proof. induction k as [|k IH]; [reflexivity|]. rewrite coef_S. cbn [prev]. rewrite IH, coef_high by lia. ring. Qed.
Lemma b_nonneg j : 0 <= b_ j.
Proof. apply sqrt_pos. Qed.
Lemma b_pos j : 0 < b_ (S j).
Proof. apply sqrt_lt_R0. apply Rdiv_lt_0_compat; [apply lt_0_INR; lia|lra]. Qed.
Lemma scale_pos j : 0 < scale_ j.
Proof. induction j as [|j IH]; cbn [scale_]; [lra|]. apply Rmult_lt_0_compat; [apply b_pos|exact IH]. Qed.

Section Moments.
Variables (n : nat) (lam : list R) (Q : list (list R)).
Hypothesis Hed : eigendecomposition n (findHermiteJacobi n) lam Q.
Hypothesis Hn : (0 < n)%nat.
Let T k j := sumR n (fun i => entry Q 0 i * nth i lam 0 ^ k * entry Q j i).
Let w i := entry Q 0 i * entry Q 0 i.

Lemma T_bounds k : forall j, (j < n)%nat -> 0 <= T k j <= scale_ j * coef k j.
Proof.
  induction k as [|k IH]; intros j Hj.
  - unfold T. rewrite (T_0 n lam Q Hed Hn j Hj). destruct j; cbn; lra.
  - assert (E : T (S k) j = prev (fun i => b_ (S i) * T k i) j + (if Nat.ltb (S j) n then b_ (S j) * T k (S j) else 0)) by exact (T_S n lam Q Hed Hn k j Hj).
    rewrite E, coef_S. clear E.
    assert (E1 : 0 <= prev (fun i => b_ (S i) * T k i) j <= scale_ j * prev (coef k) j).
    { destruct j as [|j]; cbn [prev]; [lra|]. destruct (IH j ltac:(lia)) as [A B]. pose proof (b_nonneg (S j)) as P. cbn [scale_].
      split; [apply Rmult_le_pos; assumption|]. rewrite Rmult_assoc. apply Rmult_le_compat_l; assumption. }
    assert (E2 : 0 <= (if Nat.ltb (S j) n then b_ (S j) * T k (S j) else 0) <= scale_ j * (INR (S j) / 2 * coef k (S j))).
    { pose proof (b_nonneg (S j)) as P. assert (Z : 0 <= scale_ j * (INR (S j) / 2 * coef k (S j))).
      { apply Rmult_le_pos; [left; apply scale_pos|]. apply Rmult_le_pos; [|apply coef_nonneg]. apply Rmult_le_pos; [apply pos_INR|lra]. }
      destruct (Nat.ltb_spec (S j) n) as [L|L]; [|split; [lra|exact Z]].
      destruct (IH (S j) L) as [A B]. split; [apply Rmult_le_pos; assumption|].
      eapply Rle_trans; [apply Rmult_le_compat_l; [exact P|exact B]|]. cbn [scale_]. right.
      replace (b_ (S j) * (b_ (S j) * scale_ j * coef k (S j))) with (b_ (S j) * b_ (S j) * (scale_ j * coef k (S j))) by ring. rewrite b_sq. ring. }
    rewrite Rmult_plus_distr_l. lra.
Qed.
Lemma T_strict m : (m < n)%nat -> T (n + S m) (n - S m) < scale_ (n - S m) * coef (n + S m) (n - S m).
Proof.
  assert (E : forall k j, (j < n)%nat -> T (S k) j = prev (fun i => b_ (S i) * T k i) j + (if Nat.ltb (S j) n then b_ (S j) * T k (S j) else 0)).
  { intros k j Hj. exact (T_S n lam Q Hed Hn k j Hj). }
  assert (E1 : forall k j, (j < n)%nat -> prev (fun i => b_ (S i) * T k i) j <= scale_ j * prev (coef k) j).
  { intros k j Hj. destruct j as [|j]; cbn [prev]; [lra|]. destruct (T_bounds k j ltac:(lia)) as [A B]. cbn [scale_]. rewrite Rmult_assoc.
    apply Rmult_le_compat_l; [apply b_nonneg|assumption]. }
  induction m as [|m IH]; intros Hm.
  - replace (n + 1)%nat with (S n) by lia. rewrite E, coef_S by lia.
    destruct (Nat.ltb_spec (S (n - 1)) n) as [L|L]; [lia|]. replace (S (n - 1)) with n by lia. rewrite coef_diag.
    pose proof (E1 n (n - 1)%nat ltac:(lia)) as X. pose proof (scale_pos (n - 1)) as P.
    assert (0 < scale_ (n - 1) * (INR n / 2)). { apply Rmult_lt_0_compat; [exact P|]. apply Rdiv_lt_0_compat; [apply lt_0_INR; lia|lra]. }
    lra.
  - specialize (IH ltac:(lia)). replace (n + S (S m))%nat with (S (n + S m)) by lia. rewrite E, coef_S by lia.
    destruct (Nat.ltb_spec (S (n - S (S m))) n) as [L|L]; [|lia].
    set (j := (n - S (S m))%nat) in *. replace (n - S m)%nat with (S j) in IH by lia.
    pose proof (E1 (n + S m)%nat j ltac:(lia)) as X. pose proof (Rmult_lt_compat_l _ _ _ (b_pos j) IH) as Y. cbn [scale_] in Y.
    replace (b_ (S j) * (b_ (S j) * scale_ j * coef (n + S m) (S j))) with (b_ (S j) * b_ (S j) * (scale_ j * coef (n + S m) (S j))) in Y by ring. rewrite b_sq in Y. lra.
Qed.
Definition rule_moment k := sumR n (fun i => w i * nth i lam 0 ^ k).
Lemma rule_moment_T k : rule_moment k = T k 0.
Proof. unfold rule_moment, T, w. apply sumR_ext. intros i _. ring. Qed.
Lemma rule_moment_le k : 0 <= rule_moment k <= moment k.
Proof. rewrite rule_moment_T, <- coef_moment. pose proof (T_bounds k 0 Hn) as X. cbn [scale_] in X. lra. Qed.
Lemma rule_moment_lt : rule_moment (2 * n) < moment (2 * n).
Proof.
  rewrite rule_moment_T, <- coef_moment. pose proof (T_strict (n - 1) ltac:(lia)) as X.
  replace (n + S (n - 1))%nat with (2 * n)%nat in X by lia. replace (n - S (n - 1))%nat with 0%nat in X by lia. cbn [scale_] in X. lra.
Qed.

(** * The rule for exp *)
Definition rule_exp a := sumR n (fun i => w i * exp (a * nth i lam 0)).
Lemma is_series_sumR m (f : nat -> nat -> R) (l : nat -> R) : (forall i, (i < m)%nat -> is_series (f i) (l i)) ->
  is_series (fun k => sumR m (fun i => f i k)) (sumR m l).
Proof.
  induction m as [|m IH]; intros H.
  - apply (is_series_ext (fun _ => 0)); [intros k; rewrite sumR_0; reflexivity|]. rewrite sumR_0.
    apply filterlim_ext with (f := fun _ : nat => 0); [|apply filterlim_const].
    intros k. symmetry. rewrite sum_n_const. ring.
  - apply (is_series_ext (fun k => sumR m (fun i => f i k) + f m k)); [intros k; now rewrite sumR_last|].
    rewrite sumR_last. apply (is_series_plus (fun k => sumR m (fun i => f i k)) (f m)); [apply IH; intros; apply H; lia|apply H; lia].
Qed.
Lemma rule_exp_series a : is_series (fun k => a ^ k / INR (fact k) * rule_moment k) (rule_exp a).
Proof.
  apply (is_series_ext (fun k => sumR n (fun i => w i * ((a * nth i lam 0) ^ k / INR (fact k))))).
  { intros k. unfold rule_moment. rewrite <- sumR_scal. apply sumR_ext. intros i _. rewrite Rpow_mult_distr. field. apply INR_fact_neq_0. }
  unfold rule_exp. apply is_series_sumR. intros i _. apply (is_series_scal (w i) (fun k => (a * nth i lam 0) ^ k / INR (fact k))).
  pose proof (is_exp_Reals (a * nth i lam 0)) as X. unfold is_pseries in X. eapply is_series_ext; [|exact X].
  intros k. unfold scal; cbn; unfold mult; cbn. rewrite pow_n_pow. reflexivity.
Qed.
End Moments.

Lemma moment_even k : moment (2 * k) * INR (fact k) * 4 ^ k = INR (fact (2 * k)).
Proof.
  induction k as [|k IH]; [cbn; ring|]. replace (2 * S k)%nat with (S (S (2 * k))) by lia.
  change (moment (S (S (2 * k)))) with (INR (S (2 * k)) / 2 * moment (2 * k)).
  rewrite !fact_simpl, !mult_INR, <- IH, !S_INR, mult_INR. cbn [pow INR]. field.
Qed.
Lemma moment_series a : is_series (fun k => a ^ k / INR (fact k) * moment k) (exp (a ^ 2 / 4)).
Proof.
  assert (X : is_pseries (fun k => moment k / INR (fact k)) a (exp (a ^ 2 / 4) + a * 0)).
  { apply is_pseries_odd_even.
    - pose proof (is_exp_Reals (a ^ 2 / 4)) as X. unfold is_pseries in *. eapply is_series_ext; [|exact X].
      intros k. unfold scal; cbn -[pow fact Nat.mul]; unfold mult; cbn -[pow fact Nat.mul]. rewrite !pow_n_pow. unfold Rdiv. rewrite Rpow_mult_distr. rewrite Rmult_assoc. f_equal.
      assert (F : moment (2 * k) = INR (fact (2 * k)) * / 4 ^ k * / INR (fact k)).
      { rewrite <- (moment_even k). field. split; [apply INR_fact_neq_0|apply pow_nonzero; lra]. }
      rewrite F, pow_inv. field. repeat split; try apply INR_fact_neq_0. apply pow_nonzero; lra.
    - unfold is_pseries. apply (is_series_ext (fun _ => 0)).
      + intros k. unfold scal; cbn -[pow fact Nat.mul Nat.add]; unfold mult; cbn -[pow fact Nat.mul Nat.add].
        pose proof (moment_odd (2 * k + 1) 1) as M. rewrite pow1, Rmult_1_r in M.
        replace (Nat.even (2 * k + 1)) with false in M by (rewrite Nat.even_add, Nat.even_mul; reflexivity). rewrite Rmult_0_r in M. rewrite M. unfold Rdiv. ring.
      + apply filterlim_ext with (f := fun _ : nat => 0); [|apply filterlim_const]. intros k. symmetry. rewrite sum_n_const. ring. }
  rewrite Rmult_0_r, Rplus_0_r in X. unfold is_pseries in X. eapply is_series_ext; [|exact X].
  intros k. unfold scal; cbn; unfold mult; cbn. rewrite pow_n_pow. unfold Rdiv. ring.
Qed.
Lemma series_pos (f : nat -> R) l K : is_series f l -> (forall k, 0 <= f k) -> f K <= l.
Proof.
  intros S P.
  assert (N : forall k, 0 <= sum_f_R0 f k). { induction k as [|k IH]; [apply P|]. rewrite tech5. pose proof (P (Datatypes.S k)). lra. }
  apply Rle_trans with (sum_f_R0 f K).
  - destruct K as [|K]; [cbn; lra|]. rewrite tech5. pose proof (N K). lra.
  - rewrite <- sum_n_Reals. apply (is_lim_seq_incr_compare (sum_n f) l); [exact S|]. intros k. rewrite !sum_n_Reals, tech5. pose proof (P (Datatypes.S k)). lra.
Qed.

Section Exp.
Variables (n : nat) (lam : list R) (Q : list (list R)).
Hypothesis Hed : eigendecomposition n (findHermiteJacobi n) lam Q.
Hypothesis Hn : (0 < n)%nat.
Notation rule_exp := (rule_exp n lam Q).
Notation rule_moment := (rule_moment n lam Q).

Lemma rule_exp_even a : rule_exp (- a) = rule_exp a.
Proof.
  pose proof (spectral_symmetric n lam Q Hed Hn (fun z => exp (a * z))) as S. cbv beta in S.
  unfold ReflectMain.rule_exp. rewrite <- S. apply sumR_ext. intros i _. do 2 f_equal. ring.
Qed.
Lemma rule_exp_pos a : 0 < rule_exp a.
Proof.
  unfold ReflectMain.rule_exp.
  assert (G : forall m, (m <= n)%nat -> 0 <= sumR m (fun i => entry Q 0 i * entry Q 0 i * exp (a * nth i lam 0))).
  { intros m Hm. apply sumR_nonneg. intros i Hi. apply Rmult_le_pos; [apply Rle_0_sqr|left; apply exp_pos]. }
  destruct n as [|m]; [lia|]. rewrite sumR_last.
  assert (0 < entry Q 0 m * entry Q 0 m * exp (a * nth m lam 0)).
  { apply Rmult_lt_0_compat; [|apply exp_pos]. apply Rsqr_pos_lt. apply (first_nonzero (S m) lam Q Hed); lia. }
  pose proof (G m ltac:(lia)). lra.
Qed.
Lemma rule_exp_abs a : rule_exp a = rule_exp (Rabs a).
Proof. destruct (Rcase_abs a) as [L|L]; [rewrite Rabs_left by exact L; now rewrite rule_exp_even|now rewrite Rabs_right]. Qed.
Lemma gap_series a : is_series (fun k => a ^ k / INR (fact k) * (moment k - rule_moment k)) (exp (a ^ 2 / 4) - rule_exp a).
Proof.
  pose proof (is_series_minus _ _ _ _ (moment_series a) (rule_exp_series n lam Q Hn a)) as X.
  eapply is_series_ext; [|exact X]. intros k. unfold plus, opp; cbn. ring.
Qed.
Lemma rule_exp_le a : rule_exp a <= exp (a ^ 2 / 4).
Proof.
  rewrite rule_exp_abs. replace (a ^ 2) with (Rabs a ^ 2) by (rewrite <- !Rsqr_pow2, <- Rsqr_abs; reflexivity).
  pose proof (series_pos _ _ 0 (gap_series (Rabs a))) as X. pose proof (rule_moment_le n lam Q Hed Hn 0) as M.
  assert (forall k, 0 <= Rabs a ^ k / INR (fact k) * (moment k - rule_moment k)).
  { intros k. apply Rmult_le_pos; [apply Rmult_le_pos; [apply pow_le, Rabs_pos|left; apply Rinv_0_lt_compat, INR_fact_lt_0]|].
    pose proof (rule_moment_le n lam Q Hed Hn k). lra. }
  specialize (X H). specialize (H 0%nat). lra.
Qed.
Lemma rule_exp_lt a : a <> 0 -> rule_exp a < exp (a ^ 2 / 4).
Proof.
  intros A. rewrite rule_exp_abs. replace (a ^ 2) with (Rabs a ^ 2) by (rewrite <- !Rsqr_pow2, <- Rsqr_abs; reflexivity).
  pose proof (series_pos _ _ (2 * n)%nat (gap_series (Rabs a))) as X.
  assert (forall k, 0 <= Rabs a ^ k / INR (fact k) * (moment k - rule_moment k)).
  { intros k. apply Rmult_le_pos; [apply Rmult_le_pos; [apply pow_le, Rabs_pos|left; apply Rinv_0_lt_compat, INR_fact_lt_0]|].
    pose proof (rule_moment_le n lam Q Hed Hn k). lra. }
  specialize (X H).
  assert (0 < Rabs a ^ (2 * n) / INR (fact (2 * n)) * (moment (2 * n) - rule_moment (2 * n))).
  { apply Rmult_lt_0_compat; [apply Rdiv_lt_0_compat; [apply pow_lt, Rabs_pos_lt, A|apply INR_fact_lt_0]|]. pose proof (rule_moment_lt n lam Q Hed Hn). lra. }
  lra.
Qed.
Lemma rule_exp_0 : rule_exp 0 = 1.
Proof.
  unfold ReflectMain.rule_exp. transitivity (sumR n (fun i => entry Q 0 i * entry Q 0 i * nth i lam 0 ^ 0)).
  - apply sumR_ext. intros i _. rewrite Rmult_0_l, exp_0. cbn. ring.
  - rewrite (spectral_moment n lam Q Hed Hn) by lia. reflexivity.
Qed.
End Exp.
