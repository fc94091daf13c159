(** C75: the integral over one item, and over all of them. *)
From Coq Require Import List Reals Lia Lra Arith.
From Coquelicot Require Import Coquelicot.
From Verif Require Import Model.Base Model.Mixed Model.Vectors Model.MultiNormal Model.Quadrature Model.IntegratedFunction Model.Margin
  Spec.GLMMSpec Spec.MatrixSpec Spec.HermiteSpec Spec.LaplaceSpec
  Proofs.GLMMLemmas Proofs.VectorLemmas Proofs.SumLemmas Proofs.NormalMain Proofs.ConditionalMain Proofs.GaussMain Proofs.HermiteMain Proofs.LaplaceMain
  Proofs.DensityMain Proofs.SymmetricRule Proofs.ReflectMain.
Import ListNotations.
Local Open Scope R_scope.

Lemma ln_le' a b : 0 < a -> a <= b -> ln a <= ln b.
Proof. intros A [L| <-]; [left; now apply ln_increasing|right; reflexivity]. Qed.
Lemma sumR_lt m f g j : (forall i, (i < m)%nat -> f i <= g i) -> (j < m)%nat -> f j < g j -> sumR m f < sumR m g.
Proof.
  induction m as [|m IH]; intros H Hj L; [lia|]. rewrite !sumR_last. destruct (Nat.eq_dec j m) as [->|N].
  - pose proof (sumR_le m f g ltac:(intros; apply H; lia)). lra.
  - assert (sumR m f < sumR m g) by (apply IH; [intros; apply H; lia|lia|exact L]). pose proof (H m ltac:(lia)). lra.
Qed.

Section Rule.
Variables (q : nat) (lam : list R) (Q : list (list R)).
Hypothesis Hed : eigendecomposition q (findHermiteJacobi q) lam Q.
Hypothesis Hq : (0 < q)%nat.
Variable (es : rmat -> rvec * rmat).
Hypothesis Hes : es (findHermiteJacobi q) = (lam, Q).
Notation r := (rule_initialize es q).
Notation w i := (entry Q 0 i * entry Q 0 i).
Notation rexp := (rule_exp q lam Q).

Lemma w_pos i : (i < q)%nat -> 0 < w i.
Proof. intros Hi. apply Rsqr_pos_lt. exact (first_nonzero q lam Q Hed Hq i Hi). Qed.
Lemma w_sum : sumR q (fun i => w i) = 1.
Proof. transitivity (sumR q (fun i => w i * nth i lam 0 ^ 0)); [apply sumR_ext; intros; cbn; ring|]. rewrite (spectral_moment q lam Q Hed Hq) by lia. reflexivity. Qed.

(** Nodes. *)
Lemma b_le i j : (i <= j)%nat -> b_ i <= b_ j.
Proof. intros H. apply sqrt_le_1_alt. apply Rmult_le_compat_r; [lra|]. apply le_INR. exact H. Qed.
Lemma node_bound i : (i < q)%nat -> Rabs (nth i lam 0) <= 2 * b_ (q - 1).
Proof.
  intros Hi. set (B := b_ (q - 1)). assert (PB : 0 <= B) by apply b_nonneg.
  set (v a := entry Q a i). set (S2 := sumR q (fun a => v a * v a)).
  assert (P2 : 0 < S2).
  { destruct (column_nonzero q lam Q Hed Hq i Hi) as [a [Ha Na]]. unfold S2. rewrite <- (sumR_zero q).
    apply (sumR_lt q _ _ a); [intros; apply Rle_0_sqr|exact Ha|]. apply Rsqr_pos_lt. exact Na. }
  assert (E : nth i lam 0 * S2 = sumR q (fun a => v a * prev (fun j => b_ (S j) * v j) a) + sumR q (fun a => v a * (if Nat.ltb (S a) q then b_ (S a) * v (S a) else 0))).
  { rewrite <- sumR_plus. unfold S2. rewrite <- sumR_scal. apply sumR_ext. intros a Ha.
    rewrite <- Rmult_plus_distr_l. rewrite <- (J_row q Hq a v Ha). unfold v. rewrite (ed_eigen _ _ _ _ Hed a i Ha Hi). ring. }
  assert (AB : forall b x y, 0 <= b <= B -> Rabs (x * (b * y)) <= B * ((x * x + y * y) / 2)).
  { intros b x y [Hb HB]. replace (x * (b * y)) with (b * (x * y)) by ring. rewrite Rabs_mult, (Rabs_right b) by lra.
    apply Rmult_le_compat; try apply Rabs_pos; auto. pose proof (Rle_0_sqr (x + y)) as U1. pose proof (Rle_0_sqr (x - y)) as U2. unfold Rsqr in U1, U2. unfold Rabs. destruct (Rcase_abs (x * y)); lra. }
  assert (PV : 0 <= v (q - 1)%nat * v (q - 1)%nat /\ 0 <= v 0%nat * v 0%nat) by (split; apply Rle_0_sqr).
  assert (E1 : Rabs (sumR q (fun a => v a * prev (fun j => b_ (S j) * v j) a)) <= B * S2).
  { eapply Rle_trans; [apply sumR_abs|].
    assert (ES : S2 = sumR (q - 1) (fun a => v a * v a) + v (q - 1)%nat * v (q - 1)%nat).
    { unfold S2. replace q with (S (q - 1)) at 1 by lia. apply sumR_last. }
    assert (ES' : S2 = v 0%nat * v 0%nat + sumR (q - 1) (fun a => v (S a) * v (S a))).
    { unfold S2. replace q with (S (q - 1)) at 1 by lia. apply sumR_S. }
    replace q with (S (q - 1)) at 1 by lia. rewrite sumR_S. cbn [prev]. rewrite Rmult_0_r, Rabs_R0, Rplus_0_l.
    eapply Rle_trans; [apply sumR_le; intros a Ha; apply AB; split; [apply b_nonneg|apply b_le; lia]|].
    rewrite sumR_scal. apply Rmult_le_compat_l; [exact PB|].
    rewrite (sumR_ext (q - 1) _ (fun a => / 2 * (v (S a) * v (S a)) + / 2 * (v a * v a))) by (intros; field). rewrite sumR_plus, !sumR_scal. lra. }
  assert (E2 : Rabs (sumR q (fun a => v a * (if Nat.ltb (S a) q then b_ (S a) * v (S a) else 0))) <= B * S2).
  { eapply Rle_trans; [apply sumR_abs|].
    assert (ES : S2 = sumR (q - 1) (fun a => v a * v a) + v (q - 1)%nat * v (q - 1)%nat).
    { unfold S2. replace q with (S (q - 1)) at 1 by lia. apply sumR_last. }
    assert (ES' : S2 = v 0%nat * v 0%nat + sumR (q - 1) (fun a => v (S a) * v (S a))).
    { unfold S2. replace q with (S (q - 1)) at 1 by lia. apply sumR_S. }
    replace q with (S (q - 1)) at 1 by lia. rewrite sumR_last. destruct (Nat.ltb_spec (S (q - 1)) q) as [L|L]; [lia|]. rewrite Rmult_0_r, Rabs_R0, Rplus_0_r.
    eapply Rle_trans; [apply sumR_le; intros a Ha|].
    - destruct (Nat.ltb_spec (S a) q) as [L'|L']; [|lia]. apply AB. split; [apply b_nonneg|apply b_le; lia].
    - rewrite sumR_scal. apply Rmult_le_compat_l; [exact PB|].
      rewrite (sumR_ext (q - 1) _ (fun a => / 2 * (v a * v a) + / 2 * (v (S a) * v (S a)))) by (intros; field). rewrite sumR_plus, !sumR_scal. lra. }
  assert (Rabs (nth i lam 0) * S2 <= 2 * B * S2).
  { rewrite <- (Rabs_right S2) at 1 by lra. rewrite <- Rabs_mult, E. eapply Rle_trans; [apply Rabs_triang|]. lra. }
  apply (Rmult_le_reg_r S2); assumption.
Qed.
Lemma rexp_bound a : rexp a <= exp (Rabs a * (2 * b_ (q - 1))).
Proof.
  unfold rule_exp. rewrite <- (Rmult_1_l (exp (Rabs a * _))), <- w_sum, <- sumR_scal_r. apply sumR_le. intros i Hi.
  apply Rmult_le_compat_l; [left; apply w_pos, Hi|].
  assert (a * nth i lam 0 <= Rabs a * (2 * b_ (q - 1))).
  { eapply Rle_trans; [apply Rle_abs|]. rewrite Rabs_mult. apply Rmult_le_compat_l; [apply Rabs_pos|apply node_bound, Hi]. }
  destruct H as [H|H]; [left; apply exp_increasing, H|right; now rewrite H].
Qed.
Lemma node_other z : (2 <= q)%nat -> exists i, (i < q)%nat /\ nth i lam 0 <> z.
Proof.
  intros H2. destruct (existsb (fun i => if Req_EM_T (nth i lam 0) z then false else true) (seq 0 q)) eqn:E.
  - apply existsb_exists in E. destruct E as (i & Hi & Z). apply in_seq in Hi. exists i. split; [lia|]. destruct (Req_EM_T (nth i lam 0) z); [discriminate|assumption].
  - exfalso. assert (Z : forall i, (i < q)%nat -> nth i lam 0 = z).
    { intros i Hi. destruct (Req_EM_T (nth i lam 0) z) as [|N]; [assumption|]. exfalso.
      assert (existsb (fun i => if Req_EM_T (nth i lam 0) z then false else true) (seq 0 q) = true); [|congruence].
      apply existsb_exists. exists i. split; [apply in_seq; lia|]. destruct (Req_EM_T (nth i lam 0) z); [contradiction|reflexivity]. }
    assert (M : forall k, (k < 2 * q)%nat -> z ^ k = moment k).
    { intros k Hk. rewrite <- (spectral_moment q lam Q Hed Hq k Hk). rewrite (sumR_ext q _ (fun i => w i * z ^ k)) by (intros i Hi; now rewrite Z).
      rewrite sumR_scal_r, w_sum. ring. }
    pose proof (M 1%nat ltac:(lia)) as M1. pose proof (M 2%nat ltac:(lia)) as M2. cbn in M1, M2. nra.
Qed.

(** The value, with the constant taken in. *)
Lemma evaluate_sum i x : 0 < if_sigma i ->
  let s := sumR q (fun k => w k * exp (if_function i (insert (if_over i) x (sqrt 2 * if_sigma i * nth k lam 0 + findConditionalMean i x)) + nth k lam 0 ^ 2)) in
  0 < s /\ if_evaluate i r x = ln (sqrt 2 * if_sigma i * sqrtPi) + ln s.
Proof.
  intros Hs s.
  assert (P : 0 < s).
  { unfold s. rewrite <- (sumR_zero q). apply (sumR_lt q _ _ 0); [|exact Hq|apply Rmult_lt_0_compat; [apply w_pos, Hq|apply exp_pos]].
    intros k Hk. apply Rmult_le_pos; [left; apply w_pos, Hk|left; apply exp_pos]. }
  split; [exact P|]. unfold if_evaluate, integrateNoLog, extendArgument. rewrite (rule_sum q lam Q Hed Hq es Hes).
  rewrite (sumR_ext q _ (fun k => sqrtPi * exp (- if_logValueAtMean i) *
    (w k * exp (if_function i (insert (if_over i) x (sqrt 2 * if_sigma i * nth k lam 0 + findConditionalMean i x)) + nth k lam 0 ^ 2)))).
  2:{ intros k Hk. unfold Rminus. rewrite !exp_plus. ring. }
  rewrite sumR_scal. fold s.
  assert (H2 : 0 < sqrt 2) by (apply sqrt_lt_R0; lra). assert (HsP : 0 < sqrtPi) by (unfold sqrtPi; lra).
  replace (sqrt 2 * if_sigma i * (sqrtPi * exp (- if_logValueAtMean i) * s)) with (sqrt 2 * if_sigma i * sqrtPi * (exp (- if_logValueAtMean i) * s)) by ring.
  assert (0 < sqrt 2 * if_sigma i * sqrtPi) by (apply Rmult_lt_0_compat; [apply Rmult_lt_0_compat|]; assumption).
  rewrite ln_mult; [|assumption|apply Rmult_lt_0_compat; [apply exp_pos|exact P]].
  rewrite (ln_mult (exp _)); [|apply exp_pos|exact P]. rewrite ln_exp. ring.
Qed.

(** A function that is quadratic along the line. *)
Lemma line_value i x A c e : 0 < if_sigma i -> findConditionalMean i x = c - 2 * e ->
  (forall t, if_function i (insert (if_over i) x t) = A - (t - c) ^ 2 / (2 * if_sigma i ^ 2)) ->
  if_evaluate i r x = A + ln (sqrt 2 * if_sigma i * sqrtPi) + (ln (rexp (2 * sqrt 2 * e / if_sigma i)) - 2 * e ^ 2 / if_sigma i ^ 2).
Proof.
  intros Hs Ec Ef. destruct (evaluate_sum i x Hs) as [_ E]. rewrite E. clear E.
  rewrite (sumR_ext q _ (fun k => exp (A - 2 * e ^ 2 / if_sigma i ^ 2) * (w k * exp (2 * sqrt 2 * e / if_sigma i * nth k lam 0)))).
  2:{ intros k Hk. rewrite Ef, Ec. replace (exp (A - 2 * e ^ 2 / if_sigma i ^ 2) * (w k * exp (2 * sqrt 2 * e / if_sigma i * nth k lam 0)))
        with (w k * (exp (A - 2 * e ^ 2 / if_sigma i ^ 2) * exp (2 * sqrt 2 * e / if_sigma i * nth k lam 0))) by ring.
      rewrite <- exp_plus. do 2 f_equal. assert (H2 : sqrt 2 * sqrt 2 = 2) by (apply sqrt_sqrt; lra).
      set (z := nth k lam 0). set (s := if_sigma i) in *.
      replace ((sqrt 2 * s * z + (c - 2 * e) - c) ^ 2) with ((sqrt 2 * sqrt 2) * s ^ 2 * z ^ 2 - 4 * sqrt 2 * s * z * e + 4 * e ^ 2) by ring.
      rewrite H2. field. lra. }
  rewrite sumR_scal. fold (rexp (2 * sqrt 2 * e / if_sigma i)). rewrite (ln_mult (exp _) (rexp _)); [|apply exp_pos|apply rule_exp_pos; assumption]. rewrite ln_exp. ring.
Qed.
Lemma gap_le a : ln (rexp a) - a ^ 2 / 4 <= 0.
Proof. pose proof (rule_exp_le q lam Q Hed Hq a) as L. apply ln_le' in L; [|apply rule_exp_pos; assumption]. rewrite ln_exp in L. lra. Qed.
Lemma gap_lt a : a <> 0 -> ln (rexp a) - a ^ 2 / 4 < 0.
Proof. intros N. pose proof (rule_exp_lt q lam Q Hed Hq a N) as L. apply ln_increasing in L; [|apply rule_exp_pos; assumption]. rewrite ln_exp in L. lra. Qed.
Lemma gap_0 : ln (rexp 0) = 0.
Proof. rewrite (rule_exp_0 q lam Q Hed Hq). apply ln_1. Qed.
Lemma gap_bound a : ln (rexp a) <= Rabs a * (2 * b_ (q - 1)).
Proof. pose proof (rexp_bound a) as L. apply ln_le' in L; [|apply rule_exp_pos; assumption]. rewrite ln_exp in L. exact L. Qed.

(** * One item *)
Section One.
Variables (inverse : rmat -> rmat) (determinant : rmat -> R) (isProper : mnormal -> bool).
Variables (o n : nat) (k : R) (f : rvec -> R) (g : rvec -> rvec) (H : rvec -> rmat) (normal : mnormal).
Let N := initializeNormal inverse determinant isProper normal.
Hypothesis Ho : (o <= n)%nat.
Hypothesis Lm : length (no_mean N) = S n.
Hypothesis HPV : are_inverse (S n) (no_precision N) (no_variance N).
Hypothesis Hsym : symmetric (S n) (no_precision N).
Hypothesis Hpos : 0 < entry (no_precision N) o o.
Hypothesis Hinv : inverts inverse n (getMatrixWithout o (no_variance N)).
Hypothesis Hf : forall x, length x = S n -> f x = k - quad (S n) (no_precision N) (no_mean N) x / 2.
Let i := make_ifun inverse determinant isProper o f g H normal.
Let Poo := entry (no_precision N) o o.

Lemma C75_main x : length x = n ->
  exists c I, (forall c', conditional_mean (S n) (no_precision N) (no_mean N) o (fun t => insert o x t) c' <-> c' = c) /\
    integral (fun t => exp (f (insert o x t))) I /\ 0 < I /\
    let e := c - nth o (no_mean N) 0 in
    let error := if_evaluate i r x - (ln I + ln (sqrtPi / sqrt PI)) in
    error <= 0 /\ (error = 0 <-> e = 0) /\ error <= 4 * Rabs e * sqrt (INR (q - 1) * Poo) - 2 * e ^ 2 * Poo /\ (q = 1%nat -> error = - 2 * e ^ 2 * Poo).
Proof.
  intros Lx. destruct (C27_main inverse determinant isProper o n f g H normal Ho Lm HPV Hsym Hpos Hinv x Lx) as [c [C1 [C2 [C3 C4]]]].
  destruct (made_members inverse determinant isProper o n f g H normal Ho Lm HPV Hsym Hpos Hinv) as (E1 & E2 & _).
  fold N in C1, C2, C4. fold i in C2, C4, E1, E2. fold Poo in C4. change (0 < Poo) in Hpos.
  set (z0 := quad (S n) (no_precision N) (no_mean N) (insert o x c)).
  assert (EL : forall t, f (insert o x t) = (k - z0 / 2) - Poo * (t - c) ^ 2 / 2).
  { intros t. rewrite Hf by (rewrite insert_length; lia). pose proof (proj2 (C1 c) eq_refl t) as CM. cbv beta in CM. rewrite CM. fold z0. fold Poo. field. }
  pose proof (kernel_line Poo c Hpos) as KL. apply (gen_scal _ (exp (k - z0 / 2))) in KL.
  exists c, (exp (k - z0 / 2) * (sqrt (2 * PI) / sqrt Poo)). split; [exact C1|].
  pose proof PI_RGT_0 as HPi. assert (H2 : 0 < sqrt 2) by (apply sqrt_lt_R0; lra). assert (HsPi : 0 < sqrt PI) by (apply sqrt_lt_R0; lra).
  assert (HsP : 0 < sqrtPi) by (unfold sqrtPi; lra). assert (HsQ : 0 < sqrt Poo) by (apply sqrt_lt_R0; exact Hpos).
  assert (H2P : sqrt (2 * PI) = sqrt 2 * sqrt PI) by (apply sqrt_mult; lra).
  split.
  { eapply is_RInt_gen_ext; [|exact KL]. exists (fun _ => True) (fun _ => True); try (apply filter_true). intros a b _ _ t _. cbn [fst snd]. rewrite EL.
    rewrite <- exp_plus. f_equal. field. }
  split; [apply Rmult_lt_0_compat; [apply exp_pos|apply Rdiv_lt_0_compat; [rewrite H2P; apply Rmult_lt_0_compat; assumption|assumption]]|].
  intros e error.
  assert (Hs : 0 < if_sigma i) by (rewrite C4; apply sqrt_lt_R0, Rinv_0_lt_compat; exact Hpos).
  assert (Es2 : if_sigma i ^ 2 = / Poo) by (rewrite C4; apply pow2_sqrt; left; apply Rinv_0_lt_compat; exact Hpos).
  assert (Es : if_sigma i = / sqrt Poo).
  { rewrite C4. apply sqrt_lem_1; [left; apply Rinv_0_lt_compat; exact Hpos|left; apply Rinv_0_lt_compat; exact HsQ|].
    rewrite <- Rinv_mult_distr by lra. rewrite sqrt_sqrt by lra. reflexivity. }
  assert (EV : error = ln (rexp (2 * sqrt 2 * e / if_sigma i)) - 2 * e ^ 2 / if_sigma i ^ 2).
  { unfold error. rewrite (line_value i x (k - z0 / 2) c e Hs).
    - rewrite (ln_mult (exp (k - z0 / 2))); [|apply exp_pos|apply Rdiv_lt_0_compat; [rewrite H2P; apply Rmult_lt_0_compat; assumption|assumption]]. rewrite ln_exp.
      assert (EE : ln (sqrt (2 * PI) / sqrt Poo) + ln (sqrtPi / sqrt PI) = ln (sqrt 2 * if_sigma i * sqrtPi)).
      { rewrite <- ln_mult; [|apply Rdiv_lt_0_compat; [rewrite H2P; apply Rmult_lt_0_compat; assumption|assumption]|apply Rdiv_lt_0_compat; assumption].
        f_equal. rewrite H2P, Es. field. split; lra. }
      lra.
    - rewrite C2. unfold e. ring.
    - intros t. rewrite E1, E2, EL, Es2. field. lra. }
  set (a := 2 * sqrt 2 * e / if_sigma i) in *.
  assert (Ea : 2 * e ^ 2 / if_sigma i ^ 2 = a ^ 2 / 4).
  { unfold a. assert (S2 : sqrt 2 * sqrt 2 = 2) by (apply sqrt_sqrt; lra). replace ((2 * sqrt 2 * e / if_sigma i) ^ 2) with (4 * (sqrt 2 * sqrt 2) * e ^ 2 / if_sigma i ^ 2) by (field; lra). rewrite S2. field. lra. }
  assert (Ea' : a ^ 2 / 4 = 2 * e ^ 2 * Poo) by (rewrite <- Ea, Es2; field; lra).
  rewrite EV, Ea. split; [apply gap_le|]. split; [|split].
  - split.
    + intros Z. destruct (Req_dec e 0) as [|Ne]; [assumption|]. exfalso. assert (Na : a <> 0).
      { unfold a. intros Ea0. apply Ne. assert (2 * sqrt 2 * e = 0).
        { replace (2 * sqrt 2 * e) with (2 * sqrt 2 * e / if_sigma i * if_sigma i) by (field; lra). rewrite Ea0. ring. }
        nra. }
      pose proof (gap_lt a Na). lra.
    + intros Z. assert (a = 0) as -> by (unfold a; rewrite Z; field; lra). rewrite gap_0. lra.
  - rewrite Ea'. assert (ln (rexp a) <= 4 * Rabs e * sqrt (INR (q - 1) * Poo)); [|lra].
    eapply Rle_trans; [apply gap_bound|]. right. unfold a, b_. rewrite Es. unfold Rdiv. rewrite Rinv_inv.
    rewrite !Rabs_mult, (Rabs_right (sqrt Poo)), (Rabs_right (sqrt 2)), (Rabs_right 2) by lra.
    rewrite (sqrt_mult (INR (q - 1)) Poo) by (try apply pos_INR; lra).
    rewrite (sqrt_mult (INR (q - 1)) (/ 2)) by (try apply pos_INR; lra).
    assert (S2 : sqrt 2 * sqrt (/ 2) = 1) by (rewrite <- sqrt_mult by lra; replace (2 * / 2) with 1 by lra; apply sqrt_1).
    replace (2 * sqrt 2 * Rabs e * sqrt Poo * (2 * (sqrt (INR (q - 1)) * sqrt (/ 2)))) with (4 * (sqrt 2 * sqrt (/ 2)) * Rabs e * sqrt Poo * sqrt (INR (q - 1))) by ring. rewrite S2. ring.
  - intros Q1. rewrite Ea'. assert (ln (rexp a) = 0); [|lra].
    assert (L : ln (rexp a) <= 0).
    { eapply Rle_trans; [apply gap_bound|]. unfold b_. rewrite Q1. cbn [Nat.sub INR]. replace (0 / 2) with 0 by lra. rewrite sqrt_0. lra. }
    assert (G : 1 <= rexp a).
    { unfold rule_exp. rewrite <- w_sum. apply sumR_le. intros j Hj. rewrite <- (Rmult_1_r (w j)) at 1. apply Rmult_le_compat_l; [left; apply w_pos, Hj|].
      pose proof (node_bound j Hj) as NB. unfold b_ in NB. rewrite Q1 in NB. cbn [Nat.sub INR] in NB. replace (0 / 2) with 0 in NB by lra. rewrite sqrt_0, Rmult_0_r in NB.
      assert (nth j lam 0 = 0) as ->. { pose proof (Rabs_pos (nth j lam 0)). destruct (Req_dec (nth j lam 0) 0) as [|Z]; [assumption|]. pose proof (Rabs_pos_lt _ Z). lra. }
      rewrite Rmult_0_r, exp_0. lra. }
    apply ln_le' in G; [|lra]. rewrite ln_1 in G. lra.
Qed.
End One.
End Rule.
