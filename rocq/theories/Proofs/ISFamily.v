(** Importance sampling: the integrand in terms of the conditional distribution of
    src/Family.cpp, and cases. *)
From Coq Require Import List Reals ZArith Bool Arith Sorted Lia Lra.
From Coquelicot Require Import Coquelicot.
From Interval Require Import Tactic.
From Verif Require Import Model.Base Model.Family Model.GLMM Model.SplitFrame Model.Frames Model.Vectors Model.IS Spec.Numbers Spec.FamilySpec Spec.GLMMSpec Spec.SplitSpec Spec.FramesSpec Spec.ISSpec
  Proofs.FamilyLemmas Proofs.FamilyMain Proofs.FamilyCases Proofs.GLMMLemmas Proofs.SumLemmas Proofs.SplitMain Proofs.AttachMain Proofs.LineIntegral Proofs.ISLinear Proofs.ISMain Proofs.ISEstimate Proofs.FramesCases.
From Verif Require Spec.MatrixSpec Spec.LaplaceSpec.
Import ListNotations.
Local Open Scope R_scope.

Lemma loglik_sum : forall n p y w, length p = n -> length y = n -> length w = n ->
  loglik p y w = sumR n (fun k => nth k w 0 * (nth k y 0 * ln (nth k p 0) + (1 - nth k y 0) * ln (1 - nth k p 0))).
Proof.
  induction n as [|n IH]; intros [|a p] [|b y] [|c w] LP LY LW; try discriminate LP; try discriminate LY; try discriminate LW; [reflexivity|].
  rewrite sumR_S. cbn [loglik nth]. f_equal. apply IH; [now injection LP|now injection LY|now injection LW].
Qed.

Lemma exp_big k : 2 ^ k <= exp (INR k).
Proof.
  induction k as [|k IH]; [cbn; rewrite exp_0; lra|]. rewrite S_INR, exp_plus. cbn [pow]. pose proof (exp_ineq1_le 1). assert (0 < 2 ^ k) by (apply pow_lt; lra). nra.
Qed.
Lemma exp_30 : 10 ^ 9 < exp 30.
Proof. pose proof (exp_big 30) as H. replace (INR 30) with 30 in H by (cbn; ring). lra. Qed.
Lemma exp_28 : 10 ^ 8 < exp 28.
Proof. pose proof (exp_big 28) as H. replace (INR 28) with 28 in H by (cbn; ring). lra. Qed.
Lemma logistic_28 : 1 - tiny < logistic 28 < 1.
Proof.
  unfold logistic, tiny. rewrite exp_Ropp. pose proof exp_28. assert (0 < / exp 28) by (apply Rinv_0_lt_compat; lra). split.
  - assert (/ exp 28 < / 10 ^ 8) by (apply Rinv_lt_contravar; [apply Rmult_lt_0_compat; lra|assumption]).
    apply Rlt_le_trans with (1 - / exp 28); [lra|]. apply (Rmult_le_reg_r (1 + / exp 28)); [lra|]. rewrite Rinv_l by lra. nra.
  - rewrite <- Rinv_1. apply Rinv_lt_contravar; lra.
Qed.

Lemma linkinv_inside l thresh t : tiny <= mn0 l t <= 1 - tiny -> (l = Probit -> Rabs t <= thresh) -> linkinv (r_binomial thresh l) t = mn0 l t.
Proof.
  intros [A B] H. destruct l; cbn [r_binomial linkinv].
  - assert (S1 : - 30 <= t).
    { destruct (Rle_lt_dec (- 30) t) as [K|K]; [exact K|exfalso]. change (mn0 Logit t) with (logit_mean Rnum t) in A. rewrite logit_logistic in A. unfold logistic in A.
      assert (exp 30 < exp (- t)) by (apply exp_increasing; lra). pose proof exp_30. unfold tiny in A.
      assert (/ (1 + exp (- t)) < / 10 ^ 8) by (apply Rinv_lt_contravar; [|lra]; apply Rmult_lt_0_compat; lra). lra. }
    assert (S2 : t <= 30).
    { destruct (Rle_lt_dec t 30) as [K|K]; [exact K|exfalso]. change (mn0 Logit t) with (logit_mean Rnum t) in B. rewrite logit_logistic in B. unfold logistic in B.
      assert (exp (- t) < exp (- 30)) by (apply exp_increasing; lra). assert (exp (- 30) < / 10 ^ 9) by (change (exp (Ropp 30) < / 10 ^ 9); rewrite exp_Ropp; pose proof exp_30; apply Rinv_lt_contravar; [apply Rmult_lt_0_compat; lra|assumption]). unfold tiny in B. pose proof (exp_pos (- t)).
      assert (1 - exp (- t) <= / (1 + exp (- t))).
      { apply (Rmult_le_reg_r (1 + exp (- t))); [lra|]. rewrite Rinv_l by lra. nra. }
      lra. }
    unfold logit_linkinv, Rltb. destruct (Rlt_dec t (-30)); [lra|]. destruct (Rlt_dec 30 t); [lra|]. reflexivity.
  - specialize (H eq_refl). unfold probit_linkinv. apply Rabs_le_between in H. rewrite Rmax_left by lra. rewrite Rmin_left by lra. reflexivity.
Qed.

Lemma dev_one y mu w : 0 < mu < 1 -> 0 <= y <= 1 ->
  - (binomial_dev y mu w) / 2 = w * (y * ln mu + (1 - y) * ln (1 - mu)) - w * (xlogx y + xlogx (1 - y)).
Proof.
  intros HM HY. unfold binomial_dev.
  assert (Q : forall a q, 0 <= a -> 0 < q -> y_log_y a q = xlogx a - a * ln q).
  { intros a q Ha Hq. unfold y_log_y, Reqb, xlogx. destruct (Req_EM_T a 0) as [->|N]; [ring|]. rewrite ln_div by lra. ring. }
  rewrite !Q by lra. field.
Qed.

Lemma clip_closed p : tiny <= p <= 1 - tiny -> clip p = p.
Proof. intros H. unfold clip. rewrite Rmin_left by lra. rewrite Rmax_right by lra. reflexivity. Qed.

Lemma log_joint_evaluate l thresh n m y w beta theta u : length y = n -> length w = n -> List.Forall (fun a => 0 <= a <= 1) y ->
  (forall k, (k < n)%nat -> tiny <= mn0 l (predictor m beta theta u k) <= 1 - tiny /\ (l = Probit -> Rabs (predictor m beta theta u k) <= thresh)) ->
  exists v, evaluate Rnum (mkFamily l Binomial) (map (predictor m beta theta u) (seq 0 n)) y w = Ok v /\
    log_joint n (linkinv (r_binomial thresh l)) (dev_resids (r_binomial thresh l)) m y w beta theta u = v + ln (std_normal u) - saturated n y w.
Proof.
  intros LY LW HY H. rewrite evaluate_loglik by (rewrite map_length, seq_length; assumption). eexists. split; [reflexivity|].
  rewrite (loglik_sum n) by (rewrite ?map_length, ?seq_length; try assumption; reflexivity). unfold log_joint, saturated.
  match goal with |- ?a + _ = ?b + _ - ?c => enough (a = b - c) by lra end.
  rewrite <- sumR_minus. set (D := fun k => dev_resids (r_binomial thresh l) (nth k y 0) (linkinv (r_binomial thresh l) (predictor m beta theta u k)) (nth k w 0)).
  transitivity (sumR n (fun k => - (1 / 2) * D k)); [rewrite sumR_scal; change (- sumR n D / 2 = - (1 / 2) * sumR n D); field|]. apply sumR_ext. intros k Hk. destruct (H k Hk) as [IN TH]. unfold D. rewrite linkinv_inside by assumption.
  rewrite map_map. rewrite nth_map_seq by exact Hk. rewrite clip_closed by exact IN. pose proof tiny_small.
  assert (HB : 0 <= nth k y 0 <= 1).
  { rewrite List.Forall_forall in HY. apply HY. apply nth_In. exact (Nat.lt_le_trans _ _ _ Hk (Nat.eq_le_incl _ _ (eq_sym LY))). }
  etransitivity; [|apply (dev_one (nth k y 0) (mn0 l (predictor m beta theta u k)) (nth k w 0)); lra]. cbn [r_binomial dev_resids]. lra.
Qed.

Theorem C51_integrand_main l P thresh n m r y w theta beta : fits n m r y w theta beta -> inverse_link l P -> List.Forall (fun a => 0 <= a <= 1) y ->
  forall nIS u, (0 < nIS)%nat -> sized (nrandom m) nIS u ->
  (forall j k, (j < nIS)%nat -> (k < n)%nat -> let e := predictor m beta theta (draw u j) k in tiny <= P e <= 1 - tiny /\ (l = Probit -> Rabs e <= thresh)) ->
  exists v, (forall j, (j < nIS)%nat -> evaluate Rnum (mkFamily l Binomial) (map (predictor m beta theta (draw u j)) (seq 0 n)) y w = Ok (v j)) /\
    find_log_integrand (r_binomial thresh l) (theta ++ beta) m r nIS u = Ok (map (fun j => v j + ln (std_normal (draw u j)) - saturated n y w) (seq 0 nIS)).
Proof.
  intros F IL HY nIS u HN SU H. assert (MP : forall t, mn0 l t = P t).
  { intros t. destruct IL as [[-> HP]|[-> HP]]; [rewrite HP; exact (logit_logistic t)|exact (normal_cdf_unique P HP t)]. }
  set (v := fun j => loglik (map (fun t => clip (mn0 l t)) (map (predictor m beta theta (draw u j)) (seq 0 n))) y w).
  assert (V : forall j, evaluate Rnum (mkFamily l Binomial) (map (predictor m beta theta (draw u j)) (seq 0 n)) y w = Ok (v j)).
  { intros j. apply evaluate_loglik; rewrite map_length, seq_length; [exact (ft_ly _ _ _ _ _ _ _ F)|exact (ft_lw _ _ _ _ _ _ _ F)]. }
  exists v. split; [intros j _; exact (V j)|]. rewrite (C44_integrand_main (r_binomial thresh l) n m r y w theta beta F nIS u HN SU). f_equal. apply map_ext_in. intros j Hj. apply in_seq in Hj.
  destruct (log_joint_evaluate l thresh n m y w beta theta (draw u j) (ft_ly _ _ _ _ _ _ _ F) (ft_lw _ _ _ _ _ _ _ F) HY) as [v' [HV E]].
  { intros k Hk. rewrite MP. apply H; lia. }
  rewrite V in HV. injection HV as <-. exact E.
Qed.

(** Cases. *)
Definition case_m3 : modfr Rnum := mkModfr Rnum [[1]; [1]] 1 (Some case_r2) (Numeric Rnum [0; 1]) None.
Lemma case_fits b : fits 2 case_m3 case_r2 [0; 1] [1; 1] [1; 0; 1] [b].
Proof.
  constructor; try reflexivity; try (cbn; lia). constructor; [reflexivity|cbn; intros; in_cases; subst; reflexivity|]. intros r [= <-]. exact (pr_re _ _ case_p2 case_r2 eq_refl).
Qed.
Definition case_P := [[1; 1]; [1; 2]].
Definition case_R := [[1; 1]; [0; 1]].
Definition case_C := [[1; -1]; [0; 1]].
Lemma case_routines : routines 2 (fun _ => case_R) (fun _ => case_C) (fun _ => 1) case_P.
Proof.
  constructor.
  - split; [split; [reflexivity|]; intros [|[|i]] Hi; (reflexivity || lia)|]. split; [split; [reflexivity|]; intros [|[|i]] Hi; (reflexivity || lia)|].
    split; [intros [|[|i]] [|[|j]] Hi Hj; (reflexivity || lia)|]. split; [intros [|[|i]] Hi; cbn; (lra || lia)|].
    intros [|[|i]] [|[|j]] Hi Hj; try lia; unfold sumR, MatrixSpec.entry; cbn; ring.
  - split; [split; [reflexivity|]; intros [|[|i]] Hi; (reflexivity || lia)|]. split; [split; [reflexivity|]; intros [|[|i]] Hi; (reflexivity || lia)|].
    intros [|[|i]] [|[|j]] Hi Hj; try lia; split; unfold sumR, MatrixSpec.entry, MatrixSpec.unit_entry; cbn; ring.
  - unfold LaplaceSpec.det. cbn. unfold MatrixSpec.entry. cbn. field.
Qed.

Theorem C44_draws_main chol solve determinant d mean P : routines d chol solve determinant P -> length mean = d -> forall nIS z, sized d nIS z ->
  sized d nIS (transform_normal chol solve z nIS mean P) /\
  forall j, (j < nIS)%nat -> draw (transform_normal chol solve z nIS mean P) j = image d (solve (chol P)) mean (draw z j).
Proof. intros RO LM nIS z SZ. exact (transform_draw chol solve determinant d mean P RO LM z nIS SZ). Qed.

Theorem C44_covariance_refuted_main : exists d chol solve determinant P, routines d chol solve determinant P /\
  exists i j, (i < d)%nat /\ (j < d)%nat /\ sumR d (fun k => image_cov d (solve (chol P)) i k * at_ P k j) <> MatrixSpec.unit_entry i j.
Proof.
  exists 2%nat, (fun _ => case_R), (fun _ => case_C), (fun _ => 1), case_P. split; [exact case_routines|]. exists 0%nat, 1%nat. split; [lia|]. split; [lia|].
  unfold sumR, image_cov, sumR, MatrixSpec.entry, MatrixSpec.unit_entry, case_P, case_C. cbn. lra.
Qed.

Lemma case_predictor b x k : (k < 2)%nat -> predictor case_m3 [b] [1; 0; 1] [x; 0] k = b + x.
Proof.
  intros Hk. destruct k as [|[|k]]; [| |lia].
  all: unfold predictor, eta, LZ, Lam; unfold sumR, at2; cbn; change (Pos.to_nat 1) with 1%nat; change (Pos.to_nat 2) with 2%nat; cbn; ring.
Qed.

Theorem C51_clipped_refuted_main : exists l P thresh n m r y w theta beta nIS u, fits n m r y w theta beta /\ inverse_link l P /\ List.Forall (fun a => 0 <= a <= 1) y /\
  (0 < nIS)%nat /\ sized (nrandom m) nIS u /\ exists v x, evaluate Rnum (mkFamily l Binomial) (map (predictor m beta theta (draw u 0)) (seq 0 n)) y w = Ok v /\
    find_log_integrand (r_binomial thresh l) (theta ++ beta) m r nIS u = Ok [x] /\ x < v + ln (std_normal (draw u 0)) - saturated n y w.
Proof.
  exists Logit, logistic, 0, 2%nat, case_m3, case_r2, [0; 1], [1; 1], [1; 0; 1], [28], 1%nat, [[0]; [0]].
  split; [exact (case_fits 28)|]. split; [left; split; reflexivity|]. split; [repeat constructor; lra|]. split; [lia|].
  assert (SZ : sized (nrandom case_m3) 1 [[0]; [0]]) by (split; [reflexivity|cbn; intros; in_cases; subst; reflexivity]). split; [exact SZ|].
  do 2 eexists. split; [apply evaluate_loglik; reflexivity|]. split; [exact (C44_integrand_main (r_binomial 0 Logit) 2 case_m3 case_r2 _ _ _ _ (case_fits 28) 1 _ ltac:(lia) SZ)|].
  unfold log_joint, saturated. apply Rlt_le_trans with (ln (tiny) + ln (1 - tiny) + ln (std_normal (draw [[0]; [0]] 0))).
  - apply Rplus_lt_compat_r. unfold sumR. cbn [seq map fold_right draw nth]. rewrite !case_predictor by lia. cbn [r_binomial linkinv dev_resids].
    replace (logit_linkinv (28 + 0)) with (logistic 28).
    2:{ unfold logit_linkinv, Rltb. destruct (Rlt_dec _ _); [lra|]. destruct (Rlt_dec _ _); [lra|]. rewrite Rplus_0_r. symmetry. exact (logit_logistic 28). }
    pose proof logistic_28 as HL.
    pose proof tiny_small as TS. pose proof (dev_one 0 (logistic 28) 1 ltac:(lra) ltac:(lra)) as D0. pose proof (dev_one 1 (logistic 28) 1 ltac:(lra) ltac:(lra)) as D1.
    assert (X0 : xlogx 0 = 0) by (unfold xlogx; destruct (Req_EM_T 0 0); [reflexivity|lra]).
    assert (X1 : xlogx 1 = 0) by (unfold xlogx; destruct (Req_EM_T 1 0); [reflexivity|]; rewrite ln_1; ring).
    replace (1 - 0) with 1 in D0 by ring. replace (1 - 1) with 0 in D1 by ring. rewrite X0, X1 in D0, D1.
    assert (L : ln (1 - logistic 28) + ln (logistic 28) < ln tiny + ln (1 - tiny)).
    { rewrite <- !ln_mult by lra. apply ln_increasing; nra. }
    lra.
  - cbn [seq map loglik draw nth]. rewrite !case_predictor by lia.
    replace (clip (mn0 Logit (28 + 0))) with (1 - tiny).
    2:{ symmetry. apply clip_high. change (mn0 Logit (28 + 0)) with (logit_mean Rnum (28 + 0)). rewrite logit_logistic. rewrite Rplus_0_r. exact (proj1 logistic_28). }
    replace (1 - (1 - tiny)) with tiny by ring. unfold sumR. cbn [seq map fold_right nth].
    assert (X0 : xlogx 0 = 0) by (unfold xlogx; destruct (Req_EM_T 0 0); [reflexivity|lra]).
    assert (X1 : xlogx 1 = 0) by (unfold xlogx; destruct (Req_EM_T 1 0); [reflexivity|]; rewrite ln_1; ring).
    replace (1 - 0) with 1 by ring. replace (1 - 1) with 0 by ring. rewrite X0, X1. lra.
Qed.

Lemma case_unclipped : sized (nrandom case_m3) 2 [[1; -1]; [0; 0]] /\
  forall j k, (j < 2)%nat -> (k < 2)%nat -> tiny <= logistic (predictor case_m3 [0] [1; 0; 1] (draw [[1; -1]; [0; 0]] j) k) <= 1 - tiny.
Proof.
  split; [split; [reflexivity|cbn; intros; in_cases; subst; reflexivity]|]. intros [|[|j]] k Hj Hk; try lia; cbn [draw map nth]; rewrite case_predictor by exact Hk;
    unfold logistic, tiny; split; interval.
Qed.
