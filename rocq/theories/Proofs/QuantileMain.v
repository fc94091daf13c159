(** The quantile function of the standard normal distribution. *)
From Coq Require Import Reals Lra Lia.
From Coquelicot Require Import Coquelicot.
From Verif Require Import Spec.FamilySpec Spec.SplineSpec Proofs.GaussMain Proofs.FamilyLemmas.
Local Open Scope R_scope.

Definition dens (t : R) : R := gaussian_kernel t / sqrt (2 * PI).
Lemma root_pos : 0 < sqrt (2 * PI).
Proof. apply sqrt_lt_R0. pose proof PI_RGT_0. lra. Qed.
Lemma dens_pos t : 0 < dens t.
Proof. unfold dens. apply Rdiv_lt_0_compat; [apply exp_pos|apply root_pos]. Qed.
Lemma dens_decr u v : 0 <= u -> u <= v -> dens v <= dens u.
Proof.
  intros H0 H. unfold dens, gaussian_kernel. apply Rmult_le_compat_r; [left; apply Rinv_0_lt_compat, root_pos|].
  destruct (Req_dec u v) as [->|N]; [right; reflexivity|]. left. apply exp_increasing. nra.
Qed.

(** A function with a nonnegative derivative. *)
Lemma incr_le (f df : R -> R) (a b : R) : a <= b -> (forall x, a <= x <= b -> is_derive f x (df x)) ->
  (forall x, a <= x <= b -> 0 <= df x) -> f a <= f b.
Proof.
  intros H D N. destruct (Req_dec a b) as [->|E]; [lra|].
  destruct (MVT_gen f a b df) as (c & Hc & Eq).
  - intros x Hx. rewrite Rmin_left, Rmax_right in Hx by lra. apply D. lra.
  - intros x Hx. rewrite Rmin_left, Rmax_right in Hx by lra. apply derivable_continuous_pt. exists (df x). apply is_derive_Reals, D. lra.
  - rewrite Rmin_left, Rmax_right in Hc by lra. specialize (N c Hc). nra.
Qed.
Lemma incr_lt (f df : R -> R) (a b : R) : a < b -> (forall x, a <= x <= b -> is_derive f x (df x)) ->
  (forall x, a <= x <= b -> 0 < df x) -> f a < f b.
Proof.
  intros H D N.
  destruct (MVT_gen f a b df) as (c & Hc & Eq).
  - intros x Hx. rewrite Rmin_left, Rmax_right in Hx by lra. apply D. lra.
  - intros x Hx. rewrite Rmin_left, Rmax_right in Hx by lra. apply derivable_continuous_pt. exists (df x). apply is_derive_Reals, D. lra.
  - rewrite Rmin_left, Rmax_right in Hc by lra. specialize (N c Hc). nra.
Qed.
Lemma const_eq (f : R -> R) (a b : R) : (forall x, is_derive f x 0) -> f a = f b.
Proof.
  intros D. destruct (Rle_dec a b).
  - apply Rle_antisym.
    + apply (incr_le f (fun _ => 0)); auto; intros; lra.
    + apply Ropp_le_cancel. apply (incr_le (fun x => - f x) (fun _ => 0)); auto; [|intros; lra].
      intros x _. eapply is_derive_R_ext; [reflexivity| |apply (is_derive_opp f x 0); apply D]. cbn. unfold opp. cbn. ring.
  - symmetry. apply Rle_antisym.
    + apply (incr_le f (fun _ => 0)); auto; [lra|intros; lra].
    + apply Ropp_le_cancel. apply (incr_le (fun x => - f x) (fun _ => 0)); auto; [lra| |intros; lra].
      intros x _. eapply is_derive_R_ext; [reflexivity| |apply (is_derive_opp f x 0); apply D]. cbn. unfold opp. cbn. ring.
Qed.

Section Q.
Variable (P : R -> R).
Hypothesis HP : is_normal_cdf P.
Lemma P_derive (t : R) : is_derive P t (dens t). Proof. apply HP. Qed.
Lemma P_lt a b : a < b -> P a < P b.
Proof. intros H. apply (incr_lt P dens); auto; intros; [apply P_derive|apply dens_pos]. Qed.
Lemma P_inj_lt a b : P a < P b -> a < b.
Proof. intros H. destruct (Rtotal_order a b) as [|[->|G]]; auto; [lra|]. apply P_lt in G. lra. Qed.
Lemma P_inj a b : P a = P b -> a = b.
Proof. intros H. destruct (Rtotal_order a b) as [G|[|G]]; auto; apply P_lt in G; lra. Qed.
Lemma P_sym t : P (- t) = 1 - P t.
Proof.
  enough (P t + P (- t) = P 0 + P (- 0)) as H.
  { rewrite Ropp_0 in H. destruct HP as [H0 _]. lra. }
  apply (const_eq (fun t => P t + P (- t))). intros x.
  eapply is_derive_R_ext; [reflexivity| |apply (is_derive_plus P (fun t => P (- t)) x);
    [apply P_derive|apply (is_derive_comp P Ropp x); [apply P_derive|auto_derive; auto]]].
  unfold plus, scal. cbn. unfold mult. cbn. unfold dens, gaussian_kernel. replace (- x * - x) with (x * x) by ring. ring.
Qed.

Variable q : R -> R.
Hypothesis Hq : forall p, 0 < p < 1 -> P (q p) = p.
Lemma q_lt a b : 0 < a -> a < b -> b < 1 -> q a < q b.
Proof. intros. apply P_inj_lt. rewrite !Hq by lra. auto. Qed.
Lemma q_odd p : 0 < p < 1 -> q (1 - p) = - q p.
Proof. intros. apply P_inj. rewrite P_sym, !Hq by lra. auto. Qed.
Lemma q_half : q (1 / 2) = 0.
Proof. apply P_inj. rewrite Hq by lra. destruct HP as [H0 _]. now rewrite H0. Qed.
Lemma q_nonneg p : 1 / 2 <= p < 1 -> 0 <= q p.
Proof. intros H. rewrite <- q_half. destruct (Req_dec p (1 / 2)) as [->|N]; [lra|]. left. apply q_lt; lra. Qed.
Lemma q_convex a b d : 1 / 2 <= a -> a <= b -> 0 <= d -> b + d < 1 -> q (a + d) - q a <= q (b + d) - q b.
Proof.
  intros Ha Hab Hd Hb. destruct (Req_dec d 0) as [->|Nd]; [rewrite !Rplus_0_r; lra|].
  set (u := q a). set (v := q b). set (s := q (a + d) - u). set (t := q (b + d) - v).
  assert (Hu : 0 <= u) by (apply q_nonneg; lra).
  assert (Huv : u <= v) by (unfold u, v; destruct (Req_dec a b) as [->|]; [lra|left; apply q_lt; lra]).
  assert (Ht : 0 < t) by (unfold t, v; pose proof (q_lt b (b + d)); lra).
  destruct (Rle_dec s t) as [|N]; auto. exfalso.
  assert (E1 : P (u + s) - P u = d).
  { unfold s. replace (u + (q (a + d) - u)) with (q (a + d)) by ring. unfold u. rewrite !Hq by lra. ring. }
  assert (E2 : P (v + t) - P v = d).
  { unfold t. replace (v + (q (b + d) - v)) with (q (b + d)) by ring. unfold v. rewrite !Hq by lra. ring. }
  assert (H1 : P (u + 0) - P (v + 0) <= P (u + t) - P (v + t)).
  { apply (incr_le (fun h => P (u + h) - P (v + h)) (fun h => dens (u + h) - dens (v + h))); [lra| |].
    - intros x _. eapply is_derive_R_ext; [reflexivity| |apply (is_derive_minus (fun h => P (u + h)) (fun h => P (v + h)) x);
        [apply (is_derive_comp P (fun h => u + h) x); [apply P_derive|auto_derive; auto]
        |apply (is_derive_comp P (fun h => v + h) x); [apply P_derive|auto_derive; auto]]].
      unfold minus, plus, opp, scal. cbn. unfold mult. cbn. ring.
    - intros x Hx. pose proof (dens_decr (u + x) (v + x)). lra. }
  rewrite !Rplus_0_r in H1. pose proof (P_lt (u + t) (u + s)). lra.
Qed.

(** The density at 0 is the largest one. *)
Lemma P_upper t : 0 <= t -> P t <= 1 / 2 + t / sqrt (2 * PI).
Proof.
  intros H. assert (H1 : 1 / 2 + 0 / sqrt (2 * PI) - P 0 <= 1 / 2 + t / sqrt (2 * PI) - P t).
  { apply (incr_le (fun t => 1 / 2 + t / sqrt (2 * PI) - P t) (fun t => / sqrt (2 * PI) - dens t)); auto.
    - intros x _. eapply is_derive_R_ext; [reflexivity| |apply (is_derive_minus (fun t => 1 / 2 + t / sqrt (2 * PI)) P x);
        [auto_derive; [auto|reflexivity]|apply P_derive]].
      unfold minus, plus, opp. cbn. ring.
    - intros x Hx. pose proof (dens_decr 0 x ltac:(lra) ltac:(lra)) as D0. unfold dens at 2 in D0. unfold gaussian_kernel in D0.
      replace (- (0 * 0) / 2) with 0 in D0 by field. rewrite exp_0 in D0. lra. }
  destruct HP as [H0 _]. rewrite H0 in H1. unfold Rdiv in H1 at 2. rewrite Rmult_0_l in H1. lra.
Qed.
Lemma P_erf t : P t = 1 / 2 + erf0 (t / sqrt 2) / sqrt PI.
Proof.
  assert (H2 : 0 < sqrt 2) by (apply sqrt_lt_R0; lra).
  assert (HPi : 0 < sqrt PI) by (apply sqrt_lt_R0, PI_RGT_0).
  assert (Er : erf0 0 = 0).
  { unfold erf0. rewrite RInt_point. reflexivity. }
  enough (P t - erf0 (t / sqrt 2) / sqrt PI = P 0 - erf0 (0 / sqrt 2) / sqrt PI) as H.
  { destruct HP as [H0 _]. rewrite H0 in H. replace (0 / sqrt 2) with 0 in H by (field; lra). rewrite Er in H.
    replace (0 / sqrt PI) with 0 in H by (field; lra). lra. }
  apply (const_eq (fun t => P t - erf0 (t / sqrt 2) / sqrt PI)). intros x.
  eapply is_derive_R_ext; [reflexivity| |apply (is_derive_minus P (fun t => erf0 (t / sqrt 2) / sqrt PI) x);
    [apply P_derive|
     apply (is_derive_ext (fun t => scal (/ sqrt PI) (erf0 (t / sqrt 2)))); [intros; unfold scal; cbn; unfold mult; cbn; apply Rmult_comm|];
     apply (is_derive_scal (fun t => erf0 (t / sqrt 2)) x (/ sqrt PI));
     apply (is_derive_comp erf0 (fun t => t / sqrt 2) x); [apply erf0_derive|auto_derive; [auto|reflexivity]]]].
  unfold minus, plus, opp, scal. cbn. unfold mult. cbn. unfold dens, gaussian_kernel.
  rewrite (sqrt_mult 2 PI) by (pose proof PI_RGT_0; lra).
  replace (- (x / sqrt 2 * (x / sqrt 2 * 1))) with (- (x * x) / 2).
  2:{ replace 2 with (sqrt 2 * sqrt 2) at 1 by (apply sqrt_sqrt; lra). field. lra. }
  field. lra.
Qed.
Lemma P_tail : 1 - / 2 ^ 26 <= P (15 / 2).
Proof.
  rewrite P_erf. set (x := 15 / 2 / sqrt 2). assert (H2 : 0 < sqrt 2) by (apply sqrt_lt_R0; lra).
  assert (Hx2 : x ^ 2 = 225 / 8).
  { unfold x. replace ((15 / 2 / sqrt 2) ^ 2) with (225 / 4 / (sqrt 2 * sqrt 2)) by (field; lra). rewrite sqrt_sqrt; lra. }
  assert (Hx : 0 <= x) by (left; unfold x; apply Rdiv_lt_0_compat; lra).
  pose proof (aux_const x) as A. pose proof (aux_bound x) as B. pose proof (erf0_nonneg x Hx) as N. rewrite Hx2 in B.
  assert (HPi : 0 < sqrt PI) by (apply sqrt_lt_R0, PI_RGT_0).
  assert (SS : sqrt PI * sqrt PI = PI) by (apply sqrt_sqrt; pose proof PI_RGT_0; lra).
  pose proof PI2_3_2 as P32. 
  assert (E32 : exp (- (225 / 8)) <= / 2 ^ 28).
  { apply Rle_trans with (exp (- (28))); [left; apply exp_increasing; lra|]. assert (E1 : 2 <= exp 1) by (pose proof (exp_ineq1 1); lra).
    assert (E2 : exp 28 = exp 1 ^ 28).
    { rewrite <- Rpower_pow by apply exp_pos. unfold Rpower. rewrite ln_exp. f_equal. rewrite INR_IZR_INZ. simpl. lra. }
    rewrite exp_Ropp, E2. apply Rinv_le_contravar; [apply pow_lt; lra|]. apply pow_incr. lra. }
  set (e := erf0 x) in *. set (r := sqrt PI) in *.
  (* (r/2 - e)(r/2 + e) = aux <= 2^-28 *)
  assert (K : (r / 2 - e) * (r / 2 + e) <= / 2 ^ 28) by nra.
  assert (e / r >= 1 / 2 - / 2 ^ 26); [|lra].
  apply Rle_ge. apply Rle_div_r; [auto|].
  destruct (Rle_dec (r / 2) e); [assert (0 < / 2 ^ 26) by (apply Rinv_0_lt_compat, pow_lt; lra); nra|].
  assert (HH : (r / 2 - e) * (r / 2) <= / 2 ^ 28) by nra.
  assert (R1 : 1 <= r) by nra.
  assert (/ 2 ^ 28 = / 2 ^ 26 * / 4) by (replace (2 ^ 28) with (2 ^ 26 * 4) by ring; rewrite Rinv_mult; auto).
  assert (0 < / 2 ^ 26) by (apply Rinv_0_lt_compat, pow_lt; lra).
  assert (r / 2 - e <= / 2 ^ 26) by nra. nra.
Qed.

Lemma q_fit L : (1 <= L <= 25)%nat -> knots_fit q L.
Proof.
  intros HL. unfold knots_fit. set (ep := / 2 ^ (L + 1)).
  assert (H26 : / 2 ^ 26 <= ep).
  { apply Rinv_le_contravar; [apply pow_lt; lra|]. apply Rle_pow; [lra|lia]. }
  assert (Hep : ep <= / 4).
  { apply Rinv_le_contravar; [lra|]. replace 4 with (2 ^ 2) by ring. apply Rle_pow; [lra|lia]. }
  assert (H0 : 0 < / 2 ^ 26) by (apply Rinv_0_lt_compat, pow_lt; lra).
  assert (U : q (1 - ep) <= 15 / 2).
  { destruct (Rle_dec (q (1 - ep)) (15 / 2)) as [|N]; auto. exfalso.
    assert (P (15 / 2) < P (q (1 - ep))) by (apply P_lt; lra).
    rewrite Hq in H by lra. pose proof P_tail. lra. }
  assert (Lo : ep * sqrt (2 * PI) <= q (1 / 2 + ep)).
  { pose proof (P_upper (q (1 / 2 + ep)) (q_nonneg (1 / 2 + ep) ltac:(lra))) as H. rewrite Hq in H by lra.
    apply Rle_div_r; [apply root_pos|]. lra. }
  assert (R2 : 12 / 5 < sqrt (2 * PI)).
  { pose proof PI2_3_2. replace (12 / 5) with (sqrt (12 / 5 * (12 / 5))) by (apply sqrt_square; lra).
    apply sqrt_lt_1; lra. }
  assert (H31 : 2 ^ 31 * / 2 ^ 26 = 32).
  { replace (2 ^ 31) with (2 ^ 26 * 32) by ring. field. }
  assert (2 ^ 31 * (/ 2 ^ 26 * (12 / 5)) <= 2 ^ 31 * q (1 / 2 + ep)).
  { apply Rmult_le_compat_l; [apply pow_le; lra|]. nra. }
  lra.
Qed.
(** From 2^27 knots of the last level on, the farthest one is too far away. *)
Lemma aux_lower (x : R) : exp (- (2 * x ^ 2)) / 2 <= aux x.
Proof.
  unfold aux. replace (exp (- (2 * x ^ 2)) / 2) with (RInt (fun _ => exp (- (2 * x ^ 2)) / 2) 0 1).
  2:{ rewrite RInt_const. unfold scal. cbn. unfold mult. cbn. ring. }
  apply RInt_le; [lra|apply ex_RInt_const|apply aux_ex|]. intros t Ht.
  pose proof (pos1 t). pose proof (pow2_ge_0 t). pose proof (pow2_ge_0 x).
  assert (T1 : t ^ 2 <= 1) by nra.
  apply Rmult_le_compat; [left; apply exp_pos|lra| |apply Rinv_le_contravar; lra].
  destruct (Req_dec (2 * x ^ 2) (x ^ 2 * (1 + t ^ 2))) as [->|N]; [lra|]. left. apply exp_increasing. nra.
Qed.
Lemma P_tail_lower : P 3 < 1 - / 2 ^ 28.
Proof.
  rewrite P_erf. set (x := 3 / sqrt 2). assert (H2 : 0 < sqrt 2) by (apply sqrt_lt_R0; lra).
  assert (Hx2 : x ^ 2 = 9 / 2).
  { unfold x. replace ((3 / sqrt 2) ^ 2) with (9 / (sqrt 2 * sqrt 2)) by (field; lra). rewrite sqrt_sqrt; lra. }
  assert (Hx : 0 <= x) by (left; unfold x; apply Rdiv_lt_0_compat; lra).
  pose proof (aux_const x) as A. pose proof (aux_lower x) as B. pose proof (erf0_nonneg x Hx) as N. rewrite Hx2 in B.
  assert (HPi : 0 < sqrt PI) by (apply sqrt_lt_R0, PI_RGT_0).
  assert (SS : sqrt PI * sqrt PI = PI) by (apply sqrt_sqrt; pose proof PI_RGT_0; lra).
  pose proof PI_4 as P4.
  assert (E9 : / 3 ^ 9 <= exp (- (2 * (9 / 2)))).
  { replace (2 * (9 / 2)) with 9 by field. assert (E1 : exp 1 <= 3) by apply exp_le_3.
    assert (E2 : exp 9 = exp 1 ^ 9).
    { rewrite <- Rpower_pow by apply exp_pos. unfold Rpower. rewrite ln_exp. f_equal. rewrite INR_IZR_INZ. simpl. lra. }
    rewrite exp_Ropp, E2. apply Rinv_le_contravar; [apply pow_lt, exp_pos|]. apply pow_incr. split; [left; apply exp_pos|auto]. }
  set (e := erf0 x) in *. set (r := sqrt PI) in *.
  assert (K : / 3 ^ 9 / 2 <= (r / 2 - e) * (r / 2 + e)) by nra.
  assert (L28 : / 2 ^ 28 < / 3 ^ 9 / 8).
  { replace (/ 3 ^ 9 / 8) with (/ (8 * 3 ^ 9)) by field. apply Rinv_lt_contravar; [|lra].
    apply Rmult_lt_0_compat; lra. }
  assert (P9 : 0 < / 3 ^ 9) by (apply Rinv_0_lt_compat, pow_lt; lra).
  assert (He : e < r / 2) by nra.
  assert (K2 : / 3 ^ 9 / 2 <= (r / 2 - e) * r) by nra.
  assert (K3 : / 3 ^ 9 / 8 * (r * r) <= (r / 2 - e) * r) by nra.
  assert (K4 : / 3 ^ 9 / 8 * r <= r / 2 - e) by nra.
  assert (e / r <= 1 / 2 - / 3 ^ 9 / 8); [|lra].
  apply Rle_div_l; [auto|]. nra.
Qed.
Lemma P_lower t : 0 <= t -> 1 / 2 + t * dens t <= P t.
Proof.
  intros H. assert (H1 : P 0 - 0 * dens t <= P t - t * dens t).
  { apply (incr_le (fun u => P u - u * dens t) (fun u => dens u - dens t)); auto.
    - intros x _. eapply is_derive_R_ext; [reflexivity| |apply (is_derive_minus P (fun u => u * dens t) x);
        [apply P_derive|auto_derive; [auto|reflexivity]]].
      unfold minus, plus, opp. cbn. ring.
    - intros x Hx. pose proof (dens_decr x t ltac:(lra) ltac:(lra)) as D0. lra. }
  destruct HP as [H0 _]. rewrite H0 in H1. lra.
Qed.
Lemma q_wide L : (27 <= L)%nat -> (2 ^ 31 + 1) * q (1 / 2 + / 2 ^ (L + 1)) <= 10 * q (1 - / 2 ^ (L + 1)).
Proof.
  intros HL. set (ep := / 2 ^ (L + 1)).
  assert (H28 : ep <= / 2 ^ 28).
  { apply Rinv_le_contravar; [apply pow_lt; lra|]. apply Rle_pow; [lra|lia]. }
  assert (Hep : 0 < ep) by (apply Rinv_0_lt_compat, pow_lt; lra).
  assert (Hs : / 2 ^ 28 <= / 100) by (apply Rinv_le_contravar; lra).
  assert (U : 3 < q (1 - ep)).
  { apply P_inj_lt. rewrite Hq by lra. pose proof P_tail_lower. lra. }
  assert (R2 : sqrt (2 * PI) < 29 / 10).
  { pose proof PI_4. pose proof PI_RGT_0. replace (29 / 10) with (sqrt (29 / 10 * (29 / 10))) by (apply sqrt_square; lra).
    apply sqrt_lt_1; lra. }
  assert (Lo : q (1 / 2 + ep) <= 3 * ep).
  { destruct (Rle_dec (q (1 / 2 + ep)) (3 * ep)) as [|N]; auto. exfalso.
    assert (H : P (3 * ep) < P (q (1 / 2 + ep))) by (apply P_lt; lra). rewrite Hq in H by lra.
    pose proof (P_lower (3 * ep) ltac:(lra)) as G.
    assert (Dn : / 3 <= dens (3 * ep)).
    { unfold dens, gaussian_kernel. pose proof root_pos as Rp. apply Rle_div_r; [auto|].
      pose proof (exp_ineq1_le (- (3 * ep * (3 * ep)) / 2)) as E. nra. }
    nra. }
  assert (H31 : 2 ^ 31 * / 2 ^ 28 = 8) by field.
  assert ((2 ^ 31 + 1) * q (1 / 2 + ep) <= (2 ^ 31 + 1) * (3 * / 2 ^ 28)).
  { apply Rmult_le_compat_l; lra. }
  lra.
Qed.
End Q.

Lemma normal_quantile_like q : is_normal_quantile q -> normal_like q.
Proof.
  intros (P & HP & Hq). constructor.
  - apply (q_lt P HP q Hq).
  - apply (q_odd P HP q Hq).
  - apply (q_convex P HP q Hq).
Qed.
Lemma normal_quantile_fit q L : is_normal_quantile q -> (1 <= L <= 25)%nat -> knots_fit q L.
Proof. intros (P & HP & Hq). apply (q_fit P HP q Hq). Qed.

Lemma normal_quantile_wide q L : is_normal_quantile q -> (27 <= L)%nat ->
  (2 ^ 31 + 1) * q (1 / 2 + / 2 ^ (L + 1)) <= 10 * q (1 - / 2 ^ (L + 1)).
Proof. intros (P & HP & Hq). apply (q_wide P HP q Hq). Qed.

(** There is such a function. *)
Definition cdf (t : R) : R := 1 / 2 + erf0 (t / sqrt 2) / sqrt PI.
Lemma cdf_normal : is_normal_cdf cdf.
Proof.
  assert (H2 : 0 < sqrt 2) by (apply sqrt_lt_R0; lra).
  assert (HPi : 0 < sqrt PI) by (apply sqrt_lt_R0, PI_RGT_0).
  split.
  - unfold cdf. replace (0 / sqrt 2) with 0 by (field; lra). unfold erf0. rewrite RInt_point. unfold zero. cbn. field. lra.
  - intros x. unfold cdf.
    eapply is_derive_R_ext; [reflexivity| |apply (is_derive_plus (fun _ => 1 / 2) (fun t => erf0 (t / sqrt 2) / sqrt PI) x);
    [apply is_derive_const|
     apply (is_derive_ext (fun t => scal (/ sqrt PI) (erf0 (t / sqrt 2)))); [intros; unfold scal; cbn; unfold mult; cbn; apply Rmult_comm|];
     apply (is_derive_scal (fun t => erf0 (t / sqrt 2)) x (/ sqrt PI));
     apply (is_derive_comp erf0 (fun t => t / sqrt 2) x); [apply erf0_derive|auto_derive; [auto|reflexivity]]]].
    unfold plus, zero, scal. cbn. unfold mult. cbn. unfold gaussian_kernel.
    rewrite (sqrt_mult 2 PI) by (pose proof PI_RGT_0; lra).
    replace (- (x / sqrt 2 * (x / sqrt 2 * 1))) with (- (x * x) / 2).
    2:{ replace 2 with (sqrt 2 * sqrt 2) at 1 by (apply sqrt_sqrt; lra). field. lra. }
    field. lra.
Qed.
Lemma cdf_high p : p < 1 -> exists t, 0 < t /\ p < cdf t.
Proof.
  intros Hp. pose proof erf0_lim as H. assert (HPi : 0 < sqrt PI) by (apply sqrt_lt_R0, PI_RGT_0).
  destruct (H (fun y => Rabs (y - sqrt PI / 2) < (1 - p) * sqrt PI)) as [M K].
  { assert (He : 0 < (1 - p) * sqrt PI) by nra. exists (mkposreal _ He). intros y Hy. exact Hy. }
  assert (H2 : 0 < sqrt 2) by (apply sqrt_lt_R0; lra).
  set (x := Rmax M 0 + 1). assert (Hx : M < x /\ 0 < x) by (unfold x; pose proof (Rmax_l M 0); pose proof (Rmax_r M 0); lra).
  exists (x * sqrt 2). split; [nra|]. unfold cdf. replace (x * sqrt 2 / sqrt 2) with x by (field; lra).
  specialize (K x (proj1 Hx)). apply Rabs_def2 in K. destruct K as [_ K].
  assert (sqrt PI / 2 - (1 - p) * sqrt PI < erf0 x) by lra.
  assert (erf0 x / sqrt PI > (sqrt PI / 2 - (1 - p) * sqrt PI) / sqrt PI).
  { apply Rmult_gt_compat_r; [apply Rinv_0_lt_compat; auto|auto]. }
  replace ((sqrt PI / 2 - (1 - p) * sqrt PI) / sqrt PI) with (1 / 2 - (1 - p)) in H1 by (field; lra). lra.
Qed.
Lemma cdf_onto p : 0 < p < 1 -> exists z, cdf z = p.
Proof.
  intros Hp. destruct (cdf_high p) as (b & Hb0 & Hb); [lra|]. destruct (cdf_high (1 - p)) as (a & Ha0 & Ha); [lra|].
  pose proof (P_sym cdf cdf_normal a) as S.
  destruct (Ranalysis5.IVT_interv (fun t => cdf t - p) (- a) b) as (z & _ & Hz); try lra.
  - intros x _. apply derivable_continuous_pt. exists (dens x). apply is_derive_Reals.
    eapply is_derive_R_ext; [reflexivity| |apply (is_derive_minus cdf (fun _ => p) x); [apply (P_derive cdf cdf_normal)|apply is_derive_const]].
    unfold minus, plus, opp, zero. cbn. ring.
  - exists z. lra.
Qed.
Definition quantile (p : R) : R := real (Lub_Rbar (fun x => cdf x <= p)).
Lemma quantile_normal : is_normal_quantile quantile.
Proof.
  exists cdf. split; [apply cdf_normal|]. intros p Hp. destruct (cdf_onto p Hp) as (z & Hz).
  unfold quantile. rewrite (is_lub_Rbar_unique (fun x => cdf x <= p) z); auto. split.
  - intros x Hx. cbn in *. destruct (Rle_dec x z); auto. pose proof (P_lt cdf cdf_normal z x). lra.
  - intros b Hb. apply Hb. lra.
Qed.
