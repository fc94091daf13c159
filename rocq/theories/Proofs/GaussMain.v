(** The moments of exp(-x^2). *)
From Coq Require Import List Reals Lia Lra Arith.
From Coquelicot Require Import Coquelicot.
From Verif Require Import Proofs.FamilyLemmas.
Local Open Scope R_scope.

Notation minus_inf := (Rbar_locally m_infty).
Notation plus_inf := (Rbar_locally p_infty).

(** * Limits *)
Lemma lim_plus_inf (g : R -> R) (l : R) :
  (forall eps, 0 < eps -> exists M, forall x, M < x -> Rabs (g x - l) < eps) -> filterlim g plus_inf (locally l).
Proof.
  intros H P [eps HP]. destruct (H eps (cond_pos eps)) as [M HM]. exists M. intros x Hx.
  apply HP. apply HM. exact Hx.
Qed.
Lemma lim_minus_inf (g : R -> R) (l : R) :
  (forall eps, 0 < eps -> exists M, forall x, x < M -> Rabs (g x - l) < eps) -> filterlim g minus_inf (locally l).
Proof.
  intros H P [eps HP]. destruct (H eps (cond_pos eps)) as [M HM]. exists M. intros x Hx.
  apply HP. apply HM. exact Hx.
Qed.

Lemma gauss_bound k x : 1 <= Rabs x ->
  Rabs (x ^ k * exp (- x ^ 2)) <= INR (S k) ^ (S k) / Rabs x.
Proof.
  intros Hx. set (m := S k). assert (Hm : 0 < INR m) by (apply lt_0_INR; unfold m; lia).
  assert (E : exp (x ^ 2) = exp (x ^ 2 / INR m) ^ m).
  { assert (G : forall j y, exp (INR j * y) = exp y ^ j).
    { induction j as [|j IH]; intros y; [cbn; rewrite Rmult_0_l; apply exp_0|].
      rewrite S_INR, Rmult_plus_distr_r, exp_plus, IH, Rmult_1_l. cbn. ring. }
    rewrite <- G. f_equal. field. lra. }
  assert (B : (Rabs x ^ 2 / INR m) ^ m <= exp (x ^ 2)).
  { rewrite E. apply pow_incr. rewrite RPow_abs, (Rabs_pos_eq (x ^ 2)) by apply pow2_ge_0.
    split; [apply Rdiv_le_0_compat; [apply pow2_ge_0|exact Hm]|]. left.
    destruct (Req_dec (x ^ 2 / INR m) 0) as [Z|Z]; [rewrite Z, exp_0; lra|].
    pose proof (exp_ineq1 (x ^ 2 / INR m) Z). lra. }
  rewrite Rabs_mult, <- RPow_abs, (Rabs_pos_eq (exp _)) by (left; apply exp_pos).
  rewrite exp_Ropp.
  assert (Hp : 0 < Rabs x) by lra.
  assert (Hpm : 0 < (Rabs x ^ 2 / INR m) ^ m).
  { apply pow_lt. apply Rdiv_lt_0_compat; [apply pow_lt; exact Hp|exact Hm]. }
  apply Rle_trans with (Rabs x ^ k * / (Rabs x ^ 2 / INR m) ^ m).
  { apply Rmult_le_compat_l; [apply pow_le; lra|]. apply Rinv_le_contravar; auto. }
  replace ((Rabs x ^ 2 / INR m) ^ m) with (Rabs x ^ k * Rabs x ^ S m * / INR m ^ m).
  2:{ unfold Rdiv. rewrite Rpow_mult_distr, <- pow_mult, <- pow_add. f_equal; [f_equal; unfold m; lia|].
      rewrite pow_inv. reflexivity. }
  assert (0 < Rabs x ^ k) by (apply pow_lt; auto). assert (0 < Rabs x ^ S m) by (apply pow_lt; auto).
  assert (0 < INR m ^ m) by (apply pow_lt; auto).
  replace (Rabs x ^ k * / (Rabs x ^ k * Rabs x ^ S m * / INR m ^ m)) with (INR m ^ m * / Rabs x ^ S m).
  2:{ field. repeat split; lra. }
  apply Rmult_le_compat_l; [lra|]. apply Rinv_le_contravar; [exact Hp|].
  rewrite <- (Rmult_1_r (Rabs x)) at 1. change (Rabs x ^ S m) with (Rabs x * Rabs x ^ m).
  apply Rmult_le_compat_l; [lra|]. apply pow_R1_Rle. exact Hx.
Qed.
Lemma gauss_small k eps : 0 < eps -> exists M, 0 < M /\ forall x, M < Rabs x -> Rabs (x ^ k * exp (- x ^ 2)) < eps.
Proof.
  intros He. set (C := INR (S k) ^ (S k)).
  assert (HC : 0 < C) by (apply pow_lt, lt_0_INR; lia).
  exists (Rmax 1 (C / eps)). split; [eapply Rlt_le_trans; [|apply Rmax_l]; lra|]. intros x Hx.
  pose proof (Rmax_l 1 (C / eps)). pose proof (Rmax_r 1 (C / eps)).
  eapply Rle_lt_trans; [apply gauss_bound; lra|]. fold C.
  apply Rmult_lt_reg_r with (Rabs x); [lra|].
  replace (C / Rabs x * Rabs x) with (eps * (C / eps)) by (field; lra). apply Rmult_lt_compat_l; lra.
Qed.
Lemma gauss_lim k : filterlim (fun x => x ^ k * exp (- x ^ 2)) plus_inf (locally 0) /\
                    filterlim (fun x => x ^ k * exp (- x ^ 2)) minus_inf (locally 0).
Proof.
  split; [apply lim_plus_inf|apply lim_minus_inf]; intros eps He; destruct (gauss_small k eps He) as [M [HM K]].
  - exists M. intros x Hx. rewrite Rminus_0_r. apply K. rewrite Rabs_pos_eq; lra.
  - exists (- M). intros x Hx. rewrite Rminus_0_r. apply K. rewrite Rabs_left; lra.
Qed.

(** * Integral of a derivative over the real line *)
Lemma integral_derivative (Phi f : R -> R) (la lb : R) :
  (forall x, is_derive Phi x (f x)) -> (forall x, continuous f x) ->
  filterlim Phi minus_inf (locally la) -> filterlim Phi plus_inf (locally lb) ->
  is_RInt_gen f minus_inf plus_inf (lb - la).
Proof.
  intros D C La Lb. 
  assert (E : forall x, Derive Phi x = f x) by (intros x; apply is_derive_unique, D).
  eapply is_RInt_gen_ext; [|apply (is_RInt_gen_Derive Phi la lb)]; auto.
  - apply filter_forall. intros ab x _. apply E.
  - apply filter_forall. intros ab x _. exists (f x). apply D.
  - apply filter_forall. intros ab x _. apply (continuous_ext f); [intros; symmetry; apply E|apply C].
Qed.

Lemma cont_gauss (q : R -> R) : (forall x, continuous q x) -> forall x, continuous (fun x => q x * exp (- x ^ 2)) x.
Proof.
  intros Hq x. apply (continuous_mult q (fun x => exp (- x ^ 2))); [apply Hq|].
  apply (ex_derive_continuous (fun x => exp (- x ^ 2))). auto_derive. auto.
Qed.
Lemma cont_pow k : forall x, continuous (fun x : R => x ^ k) x.
Proof. intros x. apply (ex_derive_continuous (fun x => x ^ k)). auto_derive. auto. Qed.

(** Integration by parts. *)
Lemma parts k : is_RInt_gen (fun x => (INR k * x ^ pred k - 2 * x ^ S k) * exp (- x ^ 2)) minus_inf plus_inf 0.
Proof.
  replace 0 with (0 - 0) by ring.
  apply (integral_derivative (fun x => x ^ k * exp (- x ^ 2))); try apply gauss_lim.
  - intros x. eapply is_derive_R_ext; [reflexivity| |auto_derive; [auto|reflexivity]]. cbn. ring.
  - apply cont_gauss. intros x. apply (ex_derive_continuous (fun x => INR k * x ^ pred k - 2 * x ^ S k)). auto_derive. auto.
Qed.

(** * The Gaussian integral *)
Definition erf0 (x : R) : R := RInt (fun t => exp (- t ^ 2)) 0 x.
Lemma cont_exp2 : forall x, continuous (fun t : R => exp (- t ^ 2)) x.
Proof. intros x. apply (ex_derive_continuous (fun x => exp (- x ^ 2))). auto_derive. auto. Qed.
Lemma erf0_derive (x : R) : is_derive erf0 x (exp (- x ^ 2)).
Proof.
  unfold erf0. apply (is_derive_RInt (fun t => exp (- t ^ 2)) (fun x => RInt (fun t => exp (- t ^ 2)) 0 x) 0).
  - exists (mkposreal 1 Rlt_0_1). intros y _. apply (RInt_correct (fun t => exp (- t ^ 2))).
    apply (ex_RInt_continuous (fun t => exp (- t ^ 2))). intros; apply cont_exp2.
  - apply cont_exp2.
Qed.
Definition aux (x : R) : R := RInt (fun t => exp (- (x ^ 2 * (1 + t ^ 2))) / (1 + t ^ 2)) 0 1.
Lemma pos1 t : 0 < 1 + t ^ 2.
Proof. pose proof (pow2_ge_0 t). lra. Qed.
Lemma aux_cont (x t : R) : continuous (fun t => exp (- (x ^ 2 * (1 + t ^ 2))) / (1 + t ^ 2)) t.
Proof.
  apply (ex_derive_continuous (fun t => exp (- (x ^ 2 * (1 + t ^ 2))) / (1 + t ^ 2))).
  pose proof (pos1 t). auto_derive. intros E. cbn in *. lra.
Qed.
Lemma aux_ex (x : R) : ex_RInt (fun t => exp (- (x ^ 2 * (1 + t ^ 2))) / (1 + t ^ 2)) 0 1.
Proof. apply (ex_RInt_continuous (fun t => exp (- (x ^ 2 * (1 + t ^ 2))) / (1 + t ^ 2))). intros; apply aux_cont. Qed.
Lemma aux_partial (t x : R) : is_derive (fun u => exp (- (u ^ 2 * (1 + t ^ 2))) / (1 + t ^ 2)) x
   (-2 * x * exp (- (x ^ 2 * (1 + t ^ 2)))).
Proof.
  pose proof (pos1 t). eapply is_derive_R_ext; [reflexivity| |auto_derive; [cbn in *; lra|reflexivity]].
  cbn. field. cbn in *. lra.
Qed.
Lemma aux_derive (x : R) : is_derive aux x (- (2 * exp (- x ^ 2) * erf0 x)).
Proof.
  assert (D := is_derive_RInt_param (fun u t => exp (- (u ^ 2 * (1 + t ^ 2))) / (1 + t ^ 2)) 0 1 x).
  assert (E : RInt (fun t => Derive (fun u => exp (- (u ^ 2 * (1 + t ^ 2))) / (1 + t ^ 2)) x) 0 1
              = - (2 * exp (- x ^ 2) * erf0 x)).
  { apply is_RInt_unique.
    assert (C : is_RInt (fun s => exp (- s ^ 2)) (x * 0 + 0) (x * 1 + 0) (erf0 x)).
    { replace (x * 0 + 0) with 0 by ring. replace (x * 1 + 0) with x by ring.
      unfold erf0. apply (RInt_correct (fun s => exp (- s ^ 2))).
      apply (ex_RInt_continuous (fun s => exp (- s ^ 2))). intros; apply cont_exp2. }
    apply (is_RInt_comp_lin (fun s => exp (- s ^ 2)) x 0 0 1) in C.
    apply (is_RInt_scal _ 0 1 (-2 * exp (- x ^ 2))) in C.
    replace (- (2 * exp (- x ^ 2) * erf0 x)) with (scal (-2 * exp (- x ^ 2)) (erf0 x)).
    2:{ unfold scal. cbn. unfold mult. cbn. ring. }
    eapply is_RInt_ext; [|exact C].
    intros t _. etransitivity; [|symmetry; apply (is_derive_unique _ _ _ (aux_partial t x))].
    unfold scal. cbn. unfold mult. cbn.
    replace (- (x * (x * 1) * (1 + t * (t * 1)))) with (- (x * (x * 1)) + - ((x * t + 0) * ((x * t + 0) * 1))) by ring.
    rewrite exp_plus. ring. }
  rewrite <- E. apply D.
  - exists (mkposreal 1 Rlt_0_1). intros y _ t _. eexists. apply aux_partial.
  - intros t _.
    apply (continuity_2d_pt_ext (fun u v => -2 * u * exp (- (u ^ 2 * (1 + v ^ 2))))).
    + intros u v. symmetry. apply is_derive_unique, aux_partial.
    + apply continuity_2d_pt_mult.
      * apply continuity_2d_pt_mult; [apply continuity_2d_pt_const|apply continuity_2d_pt_id1].
      * apply (continuity_1d_2d_pt_comp exp).
        { apply derivable_continuous_pt, derivable_pt_exp. }
        apply continuity_2d_pt_opp. cbn.
        apply continuity_2d_pt_mult.
        -- apply continuity_2d_pt_mult; [apply continuity_2d_pt_id1|].
           apply continuity_2d_pt_mult; [apply continuity_2d_pt_id1|apply continuity_2d_pt_const].
        -- apply continuity_2d_pt_plus; [apply continuity_2d_pt_const|].
           apply continuity_2d_pt_mult; [apply continuity_2d_pt_id2|].
           apply continuity_2d_pt_mult; [apply continuity_2d_pt_id2|apply continuity_2d_pt_const].
  - exists (mkposreal 1 Rlt_0_1). intros y _. apply aux_ex.
Qed.

Lemma aux_0 : aux 0 = PI / 4.
Proof.
  unfold aux. apply is_RInt_unique.
  apply (is_RInt_ext (fun t => / (1 + t ^ 2))).
  - intros t _. cbn. rewrite !Rmult_0_l, Ropp_0, exp_0. unfold Rdiv. rewrite Rmult_1_l. reflexivity.
  - replace (PI / 4) with (minus (atan 1) (atan 0)).
    + apply (is_RInt_derive atan (fun t => / (1 + t ^ 2))).
      * intros t _. apply is_derive_Reals. 
        apply derivable_pt_lim_atan.
      * intros t _. apply (ex_derive_continuous (fun t => / (1 + t ^ 2))). pose proof (pos1 t).
        auto_derive. cbn in *. lra.
    + rewrite atan_1, atan_0. unfold minus, plus, opp. cbn. lra.
Qed.

Lemma aux_const (x : R) : erf0 x ^ 2 + aux x = PI / 4.
Proof.
  assert (Z : forall y, is_derive (fun u => erf0 u ^ 2 + aux u) y 0).
  { intros y. eapply is_derive_R_ext; [reflexivity| |].
    2:{ apply (is_derive_plus (fun u => erf0 u ^ 2) aux).
        - apply (is_derive_pow erf0 2). apply erf0_derive.
        - apply aux_derive. }
    unfold plus. cbn. ring. }
  rewrite <- aux_0. replace (aux 0) with (erf0 0 ^ 2 + aux 0).
  2:{ unfold erf0. rewrite RInt_point. unfold zero. cbn. ring. }
  destruct (Req_dec x 0) as [->|N]; [reflexivity|].
  destruct (MVT_gen (fun u => erf0 u ^ 2 + aux u) 0 x (fun _ => 0)) as [c [_ E]].
  - intros y _. apply Z.
  - intros y _. apply derivable_continuous_pt. exists 0. apply is_derive_Reals, Z.
  - cbn beta in E. lra.
Qed.

Lemma aux_bound (x : R) : 0 <= aux x <= exp (- x ^ 2).
Proof.
  unfold aux. split.
  - apply RInt_ge_0; [lra|apply aux_ex|]. intros t _. left. apply Rdiv_lt_0_compat; [apply exp_pos|apply pos1].
  - replace (exp (- x ^ 2)) with (RInt (fun _ => exp (- x ^ 2)) 0 1).
    + apply RInt_le; [lra|apply aux_ex|apply ex_RInt_const|]. intros t _.
      pose proof (pos1 t). pose proof (pow2_ge_0 t). pose proof (pow2_ge_0 x).
      apply Rle_trans with (exp (- (x ^ 2 * (1 + t ^ 2)))).
      * apply Rle_div_l; [lra|]. pose proof (exp_pos (- (x ^ 2 * (1 + t ^ 2)))). nra.
      * destruct (Req_dec (x ^ 2 * t ^ 2) 0) as [Z|Z].
        -- right. f_equal. nra.
        -- left. apply exp_increasing. assert (0 <= x ^ 2 * t ^ 2) by (apply Rmult_le_pos; auto). nra.
    + rewrite RInt_const. unfold scal. cbn. unfold mult. cbn. ring.
Qed.

Lemma erf0_nonneg (x : R) : 0 <= x -> 0 <= erf0 x.
Proof.
  intros H. unfold erf0. apply RInt_ge_0; auto.
  - apply (ex_RInt_continuous (fun s => exp (- s ^ 2))). intros; apply cont_exp2.
  - intros t _. left. apply exp_pos.
Qed.
Lemma erf0_odd (x : R) : erf0 (- x) = - erf0 x.
Proof.
  unfold erf0.
  apply is_RInt_unique.
  assert (C : is_RInt (fun s => exp (- s ^ 2)) (-1 * 0 + 0) (-1 * - x + 0) (erf0 x)).
  { replace (-1 * 0 + 0) with 0 by ring. replace (-1 * - x + 0) with x by ring.
    unfold erf0. apply (RInt_correct (fun s => exp (- s ^ 2))).
    apply (ex_RInt_continuous (fun s => exp (- s ^ 2))). intros; apply cont_exp2. }
  apply (is_RInt_comp_lin (fun s => exp (- s ^ 2)) (-1) 0 0 (- x)) in C.
  apply (is_RInt_scal _ 0 (- x) (-1)) in C. fold (erf0 x).
  replace (- erf0 x) with (scal (-1) (erf0 x)) by (unfold scal; cbn; unfold mult; cbn; ring).
  eapply is_RInt_ext; [|exact C]. intros t _. unfold scal. cbn. unfold mult. cbn.
  replace (- (t * (t * 1))) with (- ((-1 * t + 0) * ((-1 * t + 0) * 1))) by ring. ring.
Qed.
Lemma erf0_lim : filterlim erf0 plus_inf (locally (sqrt PI / 2)).
Proof.
  apply lim_plus_inf. intros eps He. pose proof PI_RGT_0 as HP.
  set (L := sqrt PI / 2). assert (HL : 0 < L) by (unfold L; pose proof (sqrt_lt_R0 PI HP); lra).
  assert (HL2 : L ^ 2 = PI / 4).
  { unfold L. replace ((sqrt PI / 2) ^ 2) with (sqrt PI * sqrt PI / 4) by field. rewrite sqrt_sqrt; lra. }
  destruct (gauss_small 0 (eps * L) (Rmult_lt_0_compat _ _ He HL)) as [M [HM K]].
  exists M. intros x Hx. specialize (K x ltac:(rewrite Rabs_pos_eq; lra)).
  rewrite pow_O, Rmult_1_l, Rabs_pos_eq in K by (left; apply exp_pos).
  pose proof (aux_const x) as A. pose proof (aux_bound x) as B. pose proof (erf0_nonneg x ltac:(lra)) as N.
  assert (E : (erf0 x - L) * (erf0 x + L) = - aux x) by nra.
  assert (Ab : Rabs (erf0 x - L) * (erf0 x + L) = aux x).
  { rewrite <- (Rabs_pos_eq (erf0 x + L)) by lra. rewrite <- Rabs_mult, E, Rabs_Ropp, Rabs_pos_eq; lra. }
  pose proof (Rabs_pos (erf0 x - L)). nra.
Qed.
Lemma erf0_lim_minus : filterlim erf0 minus_inf (locally (- (sqrt PI / 2))).
Proof.
  apply lim_minus_inf. intros eps He. pose proof erf0_lim as H.
  destruct (H (fun y => Rabs (y - sqrt PI / 2) < eps)) as [M K].
  { exists (mkposreal eps He). intros y Hy. exact Hy. }
  exists (- M). intros x Hx. specialize (K (- x) ltac:(lra)). rewrite erf0_odd in K.
  rewrite <- Rabs_Ropp. replace (- (erf0 x - - (sqrt PI / 2))) with (- erf0 x - sqrt PI / 2) by ring. exact K.
Qed.
Theorem gaussian : is_RInt_gen (fun x => exp (- x ^ 2)) minus_inf plus_inf (sqrt PI).
Proof.
  replace (sqrt PI) with (sqrt PI / 2 - - (sqrt PI / 2)) by field.
  apply (integral_derivative erf0); auto using erf0_derive, cont_exp2, erf0_lim, erf0_lim_minus.
Qed.

(** * Moments *)
Fixpoint moment (k : nat) : R :=
  match k with
  | O => 1
  | S O => 0
  | S (S j) => INR (S j) / 2 * moment j
  end.
Lemma moments k : is_RInt_gen (fun x => x ^ k * exp (- x ^ 2)) minus_inf plus_inf (sqrt PI * moment k).
Proof.
  assert (G : forall k, is_RInt_gen (fun x => x ^ k * exp (- x ^ 2)) minus_inf plus_inf (sqrt PI * moment k) /\
                        is_RInt_gen (fun x => x ^ S k * exp (- x ^ 2)) minus_inf plus_inf (sqrt PI * moment (S k))).
  { clear k. induction k as [|k [IH1 IH2]].
    - split.
      + apply (is_RInt_gen_ext (fun x => exp (- x ^ 2))).
        * apply filter_forall. intros ab x _. cbn. ring.
        * cbn [moment]. rewrite Rmult_1_r. exact gaussian.
      + pose proof (is_RInt_gen_scal _ (-1/2) _ (parts 0)) as H.
        cbn [moment]. rewrite Rmult_0_r. replace 0 with (scal (-1/2) 0) by (unfold scal; cbn; unfold mult; cbn; ring).
        eapply is_RInt_gen_ext; [|exact H]. apply filter_forall. intros ab x _.
        unfold scal. cbn. unfold mult. cbn. field.
    - split; [exact IH2|].
      pose proof (is_RInt_gen_plus _ _ _ _ (is_RInt_gen_scal _ (INR (S k) / 2) _ IH1)
                    (is_RInt_gen_scal _ (-1/2) _ (parts (S k)))) as H.
      replace (sqrt PI * moment (S (S k))) with
        (plus (scal (INR (S k) / 2) (sqrt PI * moment k)) (scal (-1/2) 0)).
      2:{ unfold plus, scal. cbn [moment]. cbn -[INR]. unfold mult. cbn -[INR]. field. }
      eapply is_RInt_gen_ext; [|exact H]. apply filter_forall. intros ab x _.
      unfold plus, scal. cbn -[INR]. unfold mult. cbn -[INR]. field. }
  exact (proj1 (G k)).
Qed.
