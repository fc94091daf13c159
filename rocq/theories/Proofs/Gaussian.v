(** The integral of the normal density. *)
From Coq Require Import List Reals Lra.
From Coquelicot Require Import Coquelicot.
From Verif Require Import Spec.Numbers Spec.FamilySpec Spec.ISSpec Proofs.FamilyLemmas Proofs.LineIntegral.
Local Open Scope R_scope.

Definition ga (t : R) : R := RInt gaussian_kernel 0 t.
Definition gf (t x : R) : R := exp (- (t * t) * (1 + x * x) / 2) / (1 + x * x).
Definition gb (t : R) : R := RInt (gf t) 0 1.

Lemma den_pos x : 0 < 1 + x * x. Proof. nra. Qed.
Lemma kernel_cont x : continuous gaussian_kernel x.
Proof. apply (ex_derive_continuous gaussian_kernel). unfold gaussian_kernel. auto_derive. trivial. Qed.
Lemma kernel_int a b : ex_RInt gaussian_kernel a b.
Proof. apply (ex_RInt_continuous gaussian_kernel). intros. apply kernel_cont. Qed.
Lemma ga_derive t : is_derive ga t (gaussian_kernel t).
Proof.
  apply (is_derive_RInt gaussian_kernel ga 0 t); [|apply kernel_cont]. exists (mkposreal 1 Rlt_0_1). intros y _. apply (RInt_correct gaussian_kernel), kernel_int.
Qed.

Lemma gf_derive t x : is_derive (fun u => gf u x) t (- t * exp (- (t * t) * (1 + x * x) / 2)).
Proof.
  unfold gf. pose proof (den_pos x). auto_derive; [trivial|]. unfold Rdiv. set (E := exp _). field. lra.
Qed.
Lemma gf_int t : ex_RInt (gf t) 0 1.
Proof. apply (ex_RInt_continuous (gf t)). intros x _. apply (ex_derive_continuous (gf t)). unfold gf. pose proof (den_pos x). auto_derive. lra. Qed.

Lemma cont2_sq u v : continuity_2d_pt (fun u v => - (u * u) * (1 + v * v) / 2) u v.
Proof.
  apply (continuity_2d_pt_ext (fun u v => - (u * u) * ((1 + v * v) * / 2))); [intros; unfold Rdiv; ring|].
  apply continuity_2d_pt_mult.
  - apply continuity_2d_pt_opp. apply continuity_2d_pt_mult; apply continuity_2d_pt_id1.
  - apply continuity_2d_pt_mult; [apply continuity_2d_pt_plus; [apply continuity_2d_pt_const|apply continuity_2d_pt_mult; apply continuity_2d_pt_id2]|apply continuity_2d_pt_const].
Qed.
Lemma gb_derive t : is_derive gb t (- (gaussian_kernel t * ga t)).
Proof.
  apply (is_derive_R_ext gb gb t (RInt (fun x => Derive (fun u => gf u x) t) 0 1)); [reflexivity| |].
  - rewrite (RInt_ext _ (fun x => (- exp (- (t * t) / 2)) * (t * gaussian_kernel (t * x + 0)))).
    2:{ intros x _. replace (Derive (fun u => gf u x) t) with (- t * exp (- (t * t) * (1 + x * x) / 2)) by (symmetry; exact (is_derive_unique _ _ _ (gf_derive t x))). unfold gaussian_kernel.
        replace (- (t * t) * (1 + x * x) / 2) with (- (t * t) / 2 + - ((t * x + 0) * (t * x + 0)) / 2) by field. rewrite exp_plus. change (- t * (exp (- (t * t) / 2) * exp (- ((t * x + 0) * (t * x + 0)) / 2)) = - exp (- (t * t) / 2) * (t * exp (- ((t * x + 0) * (t * x + 0)) / 2))). ring. }
    assert (E : ex_RInt (fun x => t * gaussian_kernel (t * x + 0)) 0 1).
    { apply (ex_RInt_comp_lin gaussian_kernel t 0 0 1). apply kernel_int. }
    etransitivity; [apply (RInt_scal (fun x => t * gaussian_kernel (t * x + 0)) 0 1 (- exp (- (t * t) / 2)) E)|].
    assert (C : RInt (fun x => t * gaussian_kernel (t * x + 0)) 0 1 = ga t).
    { etransitivity; [apply (RInt_comp_lin gaussian_kernel t 0 0 1); apply kernel_int|]. unfold ga. f_equal; ring. }
    rewrite C. unfold scal; cbn. unfold mult; cbn. unfold gaussian_kernel. ring.
  - apply (is_derive_RInt_param gf 0 1 t).
    + exists (mkposreal 1 Rlt_0_1). intros y _ x _. eexists. apply gf_derive.
    + intros x _. apply (continuity_2d_pt_ext (fun u v => - u * exp (- (u * u) * (1 + v * v) / 2))); [intros; symmetry; apply is_derive_unique, gf_derive|].
      apply continuity_2d_pt_mult; [apply continuity_2d_pt_opp, continuity_2d_pt_id1|].
      apply (continuity_1d_2d_pt_comp exp (fun u v => - (u * u) * (1 + v * v) / 2)); [apply derivable_continuous_pt, derivable_pt_exp|apply cont2_sq].
    + exists (mkposreal 1 Rlt_0_1). intros y _. apply gf_int.
Qed.

Lemma const_of_derive0 (f : R -> R) : (forall t, is_derive f t 0) -> forall t, f t = f 0.
Proof.
  intros D t. destruct (MVT_gen f 0 t (fun _ => 0)) as [c [_ Hc]]; [intros; apply D|intros x _; apply continuity_pt_filterlim, (ex_derive_continuous f); eexists; apply D|]. lra.
Qed.
Lemma atan_D x : is_derive atan x (/ (1 + x ^ 2)).
Proof. apply is_derive_Reals. apply derivable_pt_lim_atan. Qed.
Lemma gb_0 : gb 0 = PI / 4.
Proof.
  unfold gb. rewrite (RInt_ext _ (Derive atan)).
  - rewrite RInt_Derive; [rewrite atan_1, atan_0; lra| |].
    + intros x _. eexists. apply atan_D.
    + intros x _. apply (continuous_ext (fun x => / (1 + x ^ 2))).
      * intros y. symmetry. apply is_derive_unique, atan_D.
      * apply (ex_derive_continuous (fun x => / (1 + x ^ 2))). auto_derive. nra.
  - intros x _. symmetry. apply is_derive_unique. unfold gf. replace (exp _ / (1 + x * x)) with (/ (1 + x ^ 2)).
    + apply atan_D.
    + replace (- (0 * 0) * (1 + x * x) / 2) with 0 by field. rewrite exp_0. pose proof (den_pos x). field. cbn. lra.
Qed.

(** (int_0^t exp(-x^2/2))^2 / 2 + gb t = pi / 4. *)
Lemma gaussian_identity t : ga t ^ 2 / 2 + gb t = PI / 4.
Proof.
  transitivity (ga 0 ^ 2 / 2 + gb 0).
  - apply (const_of_derive0 (fun t => ga t ^ 2 / 2 + gb t)). intros s.
    apply (is_derive_R_ext (fun t => ga t ^ 2 / 2 + gb t) _ s (ga s * gaussian_kernel s + - (gaussian_kernel s * ga s))); [reflexivity|ring|].
    apply (is_derive_plus (fun t => ga t ^ 2 / 2) gb); [|apply gb_derive].
    pose proof (ga_derive s). auto_derive; [eexists; eassumption|]. replace (Derive (fun x => ga x) s) with (gaussian_kernel s) by (symmetry; apply is_derive_unique; assumption). field.
  - rewrite gb_0. unfold ga. rewrite RInt_point. unfold zero; cbn. field.
Qed.

Lemma gb_bounds t : 0 < gb t <= exp (- (t * t) / 2) * (PI / 4).
Proof.
  split.
  - apply RInt_gt_0; [lra|intros x _; apply Rdiv_lt_0_compat; [apply exp_pos|apply den_pos]|].
    intros x _. apply (ex_derive_continuous (gf t)). unfold gf. pose proof (den_pos x). auto_derive. lra.
  - rewrite <- gb_0. unfold gb. eapply Rle_trans; [|apply Req_le; apply (RInt_scal (gf 0) 0 1 (exp (- (t * t) / 2)) (gf_int 0))].
    apply RInt_le; [lra|apply gf_int|apply (ex_RInt_scal (gf 0)); apply gf_int|]. intros x _. unfold gf, scal; cbn. unfold mult; cbn.
    replace (- (0 * 0) * (1 + x * x) / 2) with 0 by field. rewrite exp_0. pose proof (den_pos x). unfold Rdiv. rewrite <- Rmult_assoc, Rmult_1_r. apply Rmult_le_compat_r; [apply Rlt_le, Rinv_0_lt_compat; lra|].
    destruct (Rle_lt_or_eq_dec (- (t * t) * (1 + x * x) * / 2) (- (t * t) * / 2)) as [L|E]; [nra|apply Rlt_le, exp_increasing, L|rewrite E; lra].
Qed.

Lemma pdf_kernel x : normal_pdf x = / sqrt (2 * PI) * gaussian_kernel x.
Proof. unfold normal_pdf, gaussian_kernel. replace (- x ^ 2 / 2) with (- (x * x) / 2) by field. unfold Rdiv. ring. Qed.
Lemma normal_cdf_ga t : normal_cdf t = 1 / 2 + ga t / sqrt (2 * PI).
Proof.
  unfold normal_cdf, ga. f_equal. rewrite (RInt_ext _ (fun x => / sqrt (2 * PI) * gaussian_kernel x)).
  - etransitivity; [apply (RInt_scal gaussian_kernel 0 t (/ sqrt (2 * PI)) (kernel_int 0 t))|]. unfold scal; cbn. unfold mult; cbn. field. apply Rgt_not_eq, sqrt_2PI_pos.
  - intros x _. exact (pdf_kernel x).
Qed.

(** (2 Phi(t) - 1)^2 = 1 - 4 gb t / pi. *)
Lemma normal_cdf_square t : (normal_cdf t - 1 / 2) ^ 2 = 1 / 4 - gb t / PI.
Proof.
  rewrite normal_cdf_ga. pose proof (gaussian_identity t) as I. pose proof PI_RGT_0.
  replace (1 / 2 + ga t / sqrt (2 * PI) - 1 / 2) with (ga t / sqrt (2 * PI)) by lra.
  replace ((ga t / sqrt (2 * PI)) ^ 2) with (ga t ^ 2 / (sqrt (2 * PI) * sqrt (2 * PI))) by (field; apply Rgt_not_eq, sqrt_2PI_pos).
  rewrite sqrt_sqrt by lra. replace (ga t ^ 2) with (2 * (PI / 4 - gb t)) by lra. field. lra.
Qed.

Lemma normal_cdf_inside t : 0 < normal_cdf t < 1.
Proof.
  pose proof (normal_cdf_square t) as S. pose proof (gb_bounds t). pose proof PI_RGT_0. assert (0 < gb t / PI) by (apply Rdiv_lt_0_compat; lra). split; nra.
Qed.

Lemma ga_odd t : ga (- t) = - ga t.
Proof.
  unfold ga. pose proof (RInt_comp_lin gaussian_kernel (-1) 0 0 t) as C. rewrite (RInt_ext _ (fun x => (-1) * gaussian_kernel x)) in C.
  - replace (-1 * 0 + 0) with 0 in C by ring. replace (-1 * t + 0) with (- t) in C by ring. rewrite <- C by apply kernel_int.
    etransitivity; [apply (RInt_scal gaussian_kernel 0 t (-1) (kernel_int 0 t))|]. unfold scal; cbn. unfold mult; cbn. ring.
  - intros x _. assert (E : -1 * gaussian_kernel (-1 * x + 0) = -1 * gaussian_kernel x); [|exact E]. unfold gaussian_kernel. do 4 f_equal. ring.
Qed.
Lemma normal_cdf_odd t : normal_cdf (- t) = 1 - normal_cdf t.
Proof. rewrite !normal_cdf_ga, ga_odd. field. apply Rgt_not_eq, sqrt_2PI_pos. Qed.
Lemma normal_cdf_tail t : 0 <= t -> 1 - normal_cdf t <= exp (- (t * t) / 2) / 2.
Proof.
  intros Ht. assert (G : 0 <= ga t). { apply RInt_ge_0; [exact Ht|apply kernel_int|]. intros x _. apply Rlt_le, exp_pos. }
  assert (A : 1 / 2 <= normal_cdf t). { rewrite normal_cdf_ga. pose proof sqrt_2PI_pos. assert (0 <= ga t / sqrt (2 * PI)) by (apply Rle_mult_inv_pos; assumption). lra. }
  pose proof (normal_cdf_square t) as S. pose proof (gb_bounds t) as B. pose proof PI_RGT_0.
  assert (Q : gb t / PI <= exp (- (t * t) / 2) / 4). { apply (Rmult_le_reg_r PI); [assumption|]. replace (gb t / PI * PI) with (gb t) by (field; lra). lra. }
  pose proof (normal_cdf_inside t). nra.
Qed.
Lemma normal_cdf_lim (e : R) : 0 < e -> exists M, 0 <= M /\ forall t, M <= t -> 1 - e < normal_cdf t < 1.
Proof.
  intros He. exists (/ e + 2). assert (0 < / e) by (apply Rinv_0_lt_compat; exact He). split; [lra|]. intros t Ht. split; [|apply normal_cdf_inside].
  pose proof (normal_cdf_tail t ltac:(lra)) as T. assert (K : exp (- (t * t) / 2) < e); [|pose proof (exp_pos (- (t * t) / 2)); lra].
  replace (- (t * t) / 2) with (- (t * t / 2)) by (unfold Rdiv; ring). rewrite exp_Ropp. rewrite <- (Rinv_inv e). apply Rinv_lt_contravar; [apply Rmult_lt_0_compat; [assumption|apply exp_pos]|].
  apply Rlt_le_trans with t; [lra|]. apply Rle_trans with (1 + t * t / 2); [nra|]. apply exp_ineq1_le.
Qed.

Lemma phi_cdf_int a b : is_RInt phi a b (normal_cdf b - normal_cdf a).
Proof.
  assert (E : forall x, phi x = / sqrt (2 * PI) * gaussian_kernel x) by (intros; unfold phi, gaussian_kernel, Rdiv; ring).
  apply (is_RInt_ext (fun x => scal (/ sqrt (2 * PI)) (gaussian_kernel x))); [intros x _; symmetry; apply E|].
  replace (normal_cdf b - normal_cdf a) with (scal (/ sqrt (2 * PI)) (ga b - ga a)).
  - apply (is_RInt_scal gaussian_kernel). replace (ga b - ga a) with (RInt gaussian_kernel a b); [apply (RInt_correct gaussian_kernel), kernel_int|].
    unfold ga. pose proof (RInt_Chasles gaussian_kernel 0 a b (kernel_int _ _) (kernel_int _ _)) as C. change (RInt gaussian_kernel 0 a + RInt gaussian_kernel a b = RInt gaussian_kernel 0 b) in C. lra.
  - rewrite !normal_cdf_ga. unfold scal; cbn. unfold mult; cbn. field. apply Rgt_not_eq, sqrt_2PI_pos.
Qed.
(** The normal density integrates to 1. *)
Lemma phi_line : is_RInt_gen phi (Rbar_locally m_infty) (Rbar_locally p_infty) 1.
Proof.
  intros Q [e He]. destruct (normal_cdf_lim (e / 2) ltac:(destruct e; cbn; lra)) as [M [M0 HM]].
  exists (fun a => a < - M) (fun b => M < b); [exists (- M); intros; assumption|exists M; intros; assumption|]. intros a b Ha Hb. exists (normal_cdf b - normal_cdf a). split; [apply phi_cdf_int|].
  apply He. destruct (HM b ltac:(lra)) as [B1 B2]. destruct (HM (- a) ltac:(lra)) as [A1 A2]. rewrite normal_cdf_odd in A1, A2. apply Rabs_def1; unfold minus, plus, opp; cbn; lra.
Qed.
Lemma space_std_normal d : space d std_normal = 1.
Proof.
  induction d as [|d IH]; [reflexivity|]. cbn [space]. etransitivity; [|exact (line_unique phi 1 phi_line)]. apply line_ext. intros x.
  rewrite (space_ext d _ (fun u => phi x * std_normal u)) by reflexivity. rewrite space_scal, IH. ring.
Qed.
