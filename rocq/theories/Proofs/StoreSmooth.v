(** C50: the derivatives that the sparse grid and the store return. *)
From Coq Require Import List Reals Lia Lra Arith.
From Coquelicot Require Import Coquelicot.
From Verif Require Import Model.Base Model.SparseGrid Model.Vectors Model.MultiNormal Model.SparseStore
  Spec.GLMMSpec Spec.MatrixSpec Spec.Calculus Spec.StoreSpec Spec.NodalSpec Spec.GridSpec
  Proofs.ListLemmas Proofs.GLMMLemmas Proofs.VectorLemmas Proofs.SumLemmas Proofs.CalculusLemmas Proofs.NormalMain Proofs.SparseMain Proofs.GridSpan
  Proofs.StoreMain Proofs.GridSmooth.
Import ListNotations.
Local Open Scope R_scope.

(** ** The grid *)
Lemma C50_grid_main b k D x phi phi1 phi2 : total_basis b k D x phi -> nodal k x phi -> smooth_basis b k D phi phi1 phi2 ->
  forall d f, (0 < d)%nat ->
  exists g m F G H, grid_of f d b = Ok g /\ smooth d F G H /\
    (forall ls ps, grid_point d k ls ps -> F (place x ls ps) = f (place x ls ps) /\ f (place x ls ps) <= m) /\
    (exists ls ps, grid_point d k ls ps /\ f (place x ls ps) = m) /\
    forall y, length y = d -> List.Forall D y ->
      (F y < m -> interpolate g y b = Ok (F y) /\ interpolateDerivative g y b = Ok (G y) /\ interpolateSecondDerivative g y b = Ok (H y)) /\
      (m <= F y -> interpolate g y b = Ok m /\ interpolateDerivative g y b = Ok (repeat 0 d) /\
                   interpolateSecondDerivative g y b = Ok (repeat (repeat 0 d) d)).
Proof.
  intros TB NB SB d f Hd. destruct (grid_facts b k D x phi TB NB d Hd f) as (g & m & Eg & D0 & S0 & B0 & HS & HM & (c & Gc & Ec)).
  set (cs := sg_coefficients g). set (ce := cells k d).
  exists g, m, (dsum phi phi1 phi2 d cs ce []), (fun y => tabulate d (fun t => dsum phi phi1 phi2 d cs ce [t] y)),
    (fun y => tabulate d (fun r => tabulate d (fun s => dsum phi phi1 phi2 d cs ce [s; r] y))).
  split; [exact Eg|]. split.
  { apply dsum_smooth with (k := k).
    - intros; apply (sb_first _ _ _ _ _ _ SB); auto.
    - intros; apply (sb_second _ _ _ _ _ _ SB); auto.
    - intros c0 Hc0. now apply (cells_fine k d Hd). }
  assert (Pl : forall ls ps, grid_point d k ls ps -> SparseMain.gpc k d (combine ls ps) /\ place x ls ps = map (xn x) (combine ls ps)).
  { intros ls ps G. split; [|reflexivity]. destruct G as (L & L' & G). unfold gpc.
    destruct (map_combine d Hd ls ps) as [-> ->]; [lia|]. split; auto. }
  split.
  { intros ls ps G. destruct (Pl ls ps G) as [Gp ->]. split; auto. rewrite <- (interp_sum_dsum k phi phi1 phi2 d Hd cs).
    - now apply HS.
    - rewrite map_length. eapply gpc_len; eauto. }
  split. { exists (map fst c), (map snd c). split; [exact Gc|]. now rewrite place_xn. }
  intros y Ly Dy. rewrite (interpolate_sum b k D x phi TB d Hd g m y D0 S0 B0 Ly Dy).
  rewrite (interpD_spec b k D x phi phi1 phi2 TB SB d Hd g m y D0 S0 B0 Ly Dy).
  rewrite (interpD2_spec b k D x phi phi1 phi2 TB SB d Hd g m y D0 S0 B0 Ly Dy).
  rewrite (interp_sum_dsum k phi phi1 phi2 d Hd _ y Ly). fold cs ce. split; intros Hy.
  - rewrite Rmin_left by lra. destruct (Rlt_dec (dsum phi phi1 phi2 d cs ce [] y) m); [auto|lra].
  - rewrite Rmin_right by lra. destruct (Rlt_dec (dsum phi phi1 phi2 d cs ce [] y) m); [lra|auto].
Qed.

(** ** Change of variables *)
Lemma smooth_scale d f g H a : smooth d f g H ->
  smooth d (fun x => a * f x) (fun x => vscale a (g x)) (fun x => mscale a (H x)).
Proof.
  intros [S1 S2 S3 S4]. constructor.
  - intros x Lx. now apply grad_scale, S1.
  - intros x Lx. rewrite mscale_length. auto.
  - intros x i Lx Hi. rewrite nth_mscale. eapply grad_ext; [exact Lx| |reflexivity|apply (grad_scale d _ x _ a (S3 x i Lx Hi))].
    intros y Ly. cbn beta. symmetry. apply nth_vscale.
  - intros x i j Lx Hi Hj. rewrite !nth_mscale, !nth_vscale. f_equal. auto.
Qed.

Section Linear.
Variables (d : nat) (T : rmat) (m : rvec).
Hypothesis Hd : (0 < d)%nat.
Hypothesis ST : square d T.
Hypothesis Lm : length m = d.
Definition lin (x : rvec) : rvec := mvmul T (vsub x m).
Lemma lin_length x : length (lin x) = d.
Proof. unfold lin. rewrite mvmul_length. apply ST. Qed.
Lemma lin_plus x h : length x = d -> length h = d -> lin (plus_v x h) = plus_v (lin x) (mvmul T h).
Proof.
  intros Lx Lh. assert (Lt : length (mvmul T h) = d) by (rewrite mvmul_length; apply ST).
  assert (Lp := plus_v_length x h d Lx Lh).
  apply (vec_ext _ _ d); [apply lin_length|apply plus_v_length; auto using lin_length|]. intros i Hi.
  transitivity (nth i (lin x) 0 + nth i (mvmul T h) 0); [|symmetry; exact (nth_vadd i _ _ d (lin_length x) Lt Hi)].
  unfold lin. rewrite !(nth_mvmul d) by (auto; apply vsub_length; auto). rewrite <- sumR_plus. apply sumR_ext. intros j Hj.
  rewrite !(nth_vsub j _ _ d) by auto.
  replace (nth j (plus_v x h) 0) with (nth j x 0 + nth j h 0) by (symmetry; exact (nth_vadd j x h d Lx Lh Hj)). ring.
Qed.
Lemma vmmul_transpose v : length v = d -> mvmul (mtranspose T) v = vmmul v T.
Proof.
  intros Lv. destruct (vmmul_spec d d T v (proj1 ST) Lv Hd (proj2 ST)) as [L E].
  assert (S' := mtranspose_square d T ST Hd).
  apply (vec_ext _ _ d); [rewrite mvmul_length; apply S'|exact L|]. intros j Hj. rewrite (nth_mvmul d), E by auto.
  apply sumR_ext. intros i Hi. rewrite (entry_mtranspose d) by auto. ring.
Qed.
Lemma scalar_transpose v h : length v = d -> length h = d -> scalar v (mvmul T h) = scalar (vmmul v T) h.
Proof.
  intros Lv Lh. destruct (vmmul_spec d d T v (proj1 ST) Lv Hd (proj2 ST)) as [L E].
  rewrite (scalar_sum _ _ d) by (auto; rewrite mvmul_length; apply ST). rewrite (scalar_sum _ _ d) by auto.
  transitivity (sumR d (fun i => sumR d (fun j => nth i v 0 * entry T i j * nth j h 0))).
  - apply sumR_ext. intros i Hi. rewrite (nth_mvmul d) by auto. rewrite <- sumR_scal. apply sumR_ext. intros; ring.
  - rewrite sumR_swap. apply sumR_ext. intros j Hj. rewrite E by auto. rewrite <- sumR_scal_r. reflexivity.
Qed.
Lemma norm1_sum h n : length h = n -> norm1 h = sumR n (fun i => Rabs (nth i h 0)).
Proof.
  revert n. induction h as [|a h IH]; intros [|n] L; try discriminate; [reflexivity|].
  rewrite sumR_S. cbn [nth]. rewrite <- (IH n) by (injection L; auto). reflexivity.
Qed.
Definition bound_T : R := sumR d (fun i => sumR d (fun j => Rabs (entry T i j))).
Lemma bound_T_pos : 0 <= bound_T.
Proof.
  unfold bound_T. rewrite <- (sumR_zero d). apply sumR_le. intros i _. rewrite <- (sumR_zero d). apply sumR_le. intros. apply Rabs_pos.
Qed.
Lemma norm1_mvmul h : length h = d -> norm1 (mvmul T h) <= bound_T * norm1 h.
Proof.
  intros Lh. rewrite (norm1_sum (mvmul T h) d) by (rewrite mvmul_length; apply ST). unfold bound_T. rewrite <- sumR_scal_r.
  apply sumR_le. intros i Hi. rewrite (nth_mvmul d) by auto. eapply Rle_trans; [apply sumR_abs|]. rewrite <- sumR_scal_r.
  apply sumR_le. intros j Hj. rewrite Rabs_mult. apply Rmult_le_compat_l; [apply Rabs_pos|apply nth_norm1].
Qed.
Lemma grad_lin f x g : length x = d -> is_gradient d f (lin x) g -> is_gradient d (fun y => f (lin y)) x (vmmul g T).
Proof.
  intros Lx [Lg Hg]. destruct (vmmul_spec d d T g (proj1 ST) Lg Hd (proj2 ST)) as [L _]. split; [exact L|].
  intros e He. pose proof bound_T_pos as B0. set (B := bound_T + 1).
  destruct (Hg (e / B)) as (del & Hdel & K); [apply Rdiv_lt_0_compat; unfold B; lra|].
  exists (del / B). split; [apply Rdiv_lt_0_compat; unfold B; lra|]. intros h Lh Nh.
  assert (Nt := norm1_mvmul h Lh). pose proof (norm1_pos h) as N0.
  assert (Lt : length (mvmul T h) = d) by (rewrite mvmul_length; apply ST).
  assert (NB : norm1 (mvmul T h) <= B * norm1 h) by (unfold B; nra).
  assert (HB : 0 < B) by (unfold B; lra).
  assert (ND : norm1 (mvmul T h) < del).
  { apply Rle_lt_trans with (B * norm1 h); auto. apply (Rmult_lt_compat_l B) in Nh; auto. replace (B * (del / B)) with del in Nh by (field; lra). exact Nh. }
  specialize (K (mvmul T h) Lt ND). rewrite (lin_plus x h Lx Lh), <- (scalar_transpose g h Lg Lh).
  eapply Rle_trans; [exact K|]. apply Rle_trans with (e / B * (B * norm1 h)).
  - apply Rmult_le_compat_l; auto. apply Rlt_le, Rdiv_lt_0_compat; lra.
  - right. field. lra.
Qed.
Lemma grad_row f x (g : nat -> rvec) a : length x = d -> (forall r, (r < d)%nat -> is_gradient d (f r) x (g r)) ->
  is_gradient d (fun y => sumR d (fun r => a r * f r y)) x (tabulate d (fun j => sumR d (fun r => a r * nth j (g r) 0))).
Proof.
  intros Lx H. apply (grad_sum d (fun r y => a r * f r y) (fun r j => a r * nth j (g r) 0) x (seq 0 d) Lx).
  intros r Hr. apply in_seq in Hr. apply (grad_scaled d (f r) x (fun j => nth j (g r) 0) (a r) Lx).
  eapply grad_ext; [exact Lx|reflexivity| |apply H; lia].
  apply (vec_ext _ _ d); [apply (H r); lia|apply tabulate_length|]. intros j Hj. now rewrite nth_tabulate.
Qed.
Lemma smooth_square f g H : smooth d f g H -> forall x, length x = d -> square d (H x) /\ symmetric d (H x).
Proof.
  intros [S1 S2 S3 S4] x Lx. split; [split; [auto|]|].
  - intros i Hi. apply (S3 x i Lx Hi).
  - intros i j Hi Hj. now apply S4.
Qed.
Lemma mmul_square A C : square d A -> square d C -> square d (mmul A C).
Proof.
  intros SA SC. split; [unfold mmul; rewrite map_length; apply SA|]. intros i Hi. unfold mmul.
  rewrite (nth_map_lt _ _ _ _ []) by (rewrite (proj1 SA); auto).
  apply (vmmul_spec d d C (nth i A []) (proj1 SC) (proj2 SA i Hi) Hd (proj2 SC)).
Qed.
Lemma entry_mmul A C i j : square d A -> square d C -> (i < d)%nat -> (j < d)%nat ->
  entry (mmul A C) i j = sumR d (fun r => entry A i r * entry C r j).
Proof.
  intros SA SC Hi Hj. unfold entry at 1, mmul. rewrite (nth_map_lt _ _ _ _ []) by (rewrite (proj1 SA); auto).
  rewrite (proj2 (vmmul_spec d d C (nth i A []) (proj1 SC) (proj2 SA i Hi) Hd (proj2 SC)) j Hj). reflexivity.
Qed.
Lemma smooth_lin f g H : smooth d f g H ->
  smooth d (fun x => f (lin x)) (fun x => mvmul (mtranspose T) (g (lin x))) (fun x => mmul (mmul (mtranspose T) (H (lin x))) T).
Proof.
  intros Sm. pose proof Sm as [S1 S2 S3 S4]. assert (S' := mtranspose_square d T ST Hd).
  assert (SH : forall x, square d (mmul (mtranspose T) (H (lin x)))).
  { intros x. apply mmul_square; auto. apply (smooth_square f g H Sm), lin_length. }
  constructor.
  - intros x Lx. rewrite vmmul_transpose by (apply S1, lin_length). apply grad_lin; auto. apply S1, lin_length.
  - intros x Lx. apply mmul_square; auto.
  - intros x i Lx Hi. unfold mmul at 1. rewrite (nth_map_lt _ _ _ _ []) by (rewrite (proj1 (SH x)); auto).
    pose proof (grad_row (fun r y => nth r (g y) 0) (lin x) (fun r => nth r (H (lin x)) []) (fun r => entry (mtranspose T) i r)
      (lin_length x) (fun r Hr => S3 (lin x) r (lin_length x) Hr)) as G.
    apply (grad_lin (fun y => sumR d (fun r => entry (mtranspose T) i r * nth r (g y) 0)) x _ Lx) in G.
    eapply grad_ext; [exact Lx| | |exact G].
    + intros y Ly. cbn beta. rewrite (nth_mvmul d) by (auto; apply S1, lin_length). reflexivity.
    + f_equal. apply (vec_ext _ _ d); [apply tabulate_length|apply (SH x); auto|]. intros j Hj. rewrite nth_tabulate by auto.
      symmetry. apply (entry_mmul (mtranspose T) (H (lin x)) i j); auto. apply (smooth_square f g H Sm), lin_length.
  - intros x i j Lx Hi Hj. destruct (smooth_square f g H Sm (lin x) (lin_length x)) as [SqH SyH].
    assert (E : forall i j, (i < d)%nat -> (j < d)%nat -> entry (mmul (mmul (mtranspose T) (H (lin x))) T) i j =
      sumR d (fun s => sumR d (fun r => entry T r i * entry (H (lin x)) r s * entry T s j))).
    { intros i' j' Hi' Hj'. rewrite entry_mmul by auto. apply sumR_ext. intros s Hs. rewrite entry_mmul by auto.
      rewrite <- sumR_scal_r. apply sumR_ext. intros r Hr. rewrite (entry_mtranspose d) by auto. reflexivity. }
    fold (entry (mmul (mmul (mtranspose T) (H (lin x))) T) i j) (entry (mmul (mmul (mtranspose T) (H (lin x))) T) j i).
    rewrite !E by auto. rewrite sumR_swap. apply sumR_ext. intros s Hs. apply sumR_ext. intros r Hr.
    rewrite (SyH s r) by auto. ring.
Qed.
End Linear.

Lemma midentity_entry d i j : (i < d)%nat -> (j < d)%nat -> entry (midentity d) i j = unit_entry i j.
Proof.
  intros Hi Hj. unfold entry, midentity. rewrite (nth_map_lt _ _ _ _ 0%nat) by (rewrite seq_length; auto).
  rewrite (nth_map_lt _ _ _ _ 0%nat) by (rewrite seq_length; auto). rewrite !seq_nth by auto. reflexivity.
Qed.
Lemma midentity_square d : square d (midentity d).
Proof.
  unfold midentity. split; [now rewrite map_length, seq_length|]. intros i Hi.
  rewrite (nth_map_lt _ _ _ _ 0%nat) by (rewrite seq_length; auto). now rewrite map_length, seq_length.
Qed.
Lemma vsub_scale d a c : length a = d -> length c = d -> vadd a (vscale (-1) c) = vsub a c.
Proof.
  intros La Lc. assert (Ls : length (vscale (-1) c) = d) by (rewrite vscale_length; auto).
  apply (vec_ext _ _ d); [apply vadd_length; auto|apply vsub_length; auto|]. intros i Hi.
  rewrite (nth_vadd i _ _ d), (nth_vsub i _ _ d), nth_vscale by auto. ring.
Qed.
Lemma msub_scale d A C : square d A -> square d C -> madd A (mscale (-1) C) = msub A C.
Proof.
  intros SA SC. assert (Ss := mscale_square d (-1) C SC). apply (mat_ext d).
  - apply madd_square; auto.
  - apply msub_square; auto.
  - intros i j Hi Hj. rewrite (entry_madd d), (entry_msub d), entry_mscale by auto. ring.
Qed.
Lemma smooth_minus d f f' g g' H H' : smooth d f g H -> smooth d f' g' H' ->
  smooth d (fun x => f x - f' x) (fun x => vsub (g x) (g' x)) (fun x => msub (H x) (H' x)).
Proof.
  intros S S'. generalize (smooth_plus d _ _ _ _ _ _ S (smooth_scale d _ _ _ (-1) S')). apply smooth_ext.
  - intros; ring.
  - intros x Lx. apply (vsub_scale d); [apply (s_grad _ _ _ _ S)|apply (s_grad _ _ _ _ S')]; auto.
  - intros x Lx. apply (msub_scale d); [apply (smooth_square _ _ _ _ S)|apply (smooth_square _ _ _ _ S')]; auto.
Qed.
(** Half the square of the distance from 0. *)
Lemma smooth_norm d : (0 < d)%nat -> smooth d (fun z => 1 / 2 * vdot z z) (fun z => z) (fun _ => midentity d).
Proof.
  intros Hd. set (q := mkQuadratic (repeat 0 d) (mscale (1 / 2) (midentity d))).
  assert (Lb : length (qu_b q) = d) by apply repeat_length.
  assert (SA : square d (qu_A q)) by apply mscale_square, midentity_square.
  assert (EA : forall i j, (i < d)%nat -> (j < d)%nat -> entry (qu_A q) i j = 1 / 2 * unit_entry i j).
  { intros i j Hi Hj. unfold q. cbn [qu_A]. now rewrite entry_mscale, midentity_entry. }
  assert (US : forall i j, unit_entry i j = unit_entry j i) by (intros; unfold unit_entry; now rewrite Nat.eqb_sym).
  generalize (quadratic_smooth q d Hd Lb SA). apply smooth_ext.
  - intros x Lx. rewrite (quadratic_bil q d Lb SA x Lx). rewrite (vdot_sum x x d) by auto. unfold quad. rewrite <- sumR_scal.
    apply sumR_ext. intros i Hi. cbn [qu_b q]. 
    transitivity (sumR d (fun j => unit_entry i j * (1 / 2 * nth i x 0 * nth j x 0))).
    + apply sumR_ext. intros j Hj. fold q. rewrite EA by auto. rewrite !nth_repeat. ring.
    + rewrite (sumR_delta d i (fun j => 1 / 2 * nth i x 0 * nth j x 0)) by auto. ring.
  - intros x Lx. destruct (derivative_entries q d Hd Lb SA x Lx) as [L E]. apply (vec_ext _ _ d); auto. intros j Hj. rewrite E by auto.
    transitivity (sumR d (fun i => unit_entry j i * nth i x 0)); [|apply (sumR_delta d j (fun i => nth i x 0)); auto].
    apply sumR_ext. intros i Hi. rewrite !EA by auto. rewrite (US i j). cbn [qu_b q]. rewrite nth_repeat. lra.
  - intros x Lx. apply (mat_ext d); [apply (sym_part q d Hd SA)|apply midentity_square|]. intros i j Hi Hj.
    unfold quadratic_secondDerivative. rewrite (sym_entry q d Hd SA) by auto. rewrite !EA, midentity_entry by auto. rewrite (US j i). lra.
Qed.

(** ** The store *)
Section Store.
Variables (solve : rmat -> rvec -> rvec) (operatorSqrt operatorInverseSqrt : rmat -> rmat).
Variables (b : basis) (k : nat) (D : R -> Prop) (x : nat -> nat -> R) (phi phi1 phi2 : nat -> nat -> R -> R).
Hypothesis TB : total_basis b k D x phi.
Hypothesis NB : nodal k x phi.
Hypothesis SB : smooth_basis b k D phi phi1 phi2.
Variables (normal : mnormal) (d : nat).
Hypothesis Hd : (0 < d)%nat.
Hypothesis Lm : length (no_mean normal) = d.
Notation m := (no_mean normal).
Notation S := (operatorSqrt (no_precision normal)).
Hypothesis SS : square d S.
Hypothesis SP : square d (no_precision normal).
Variables (f : rvec -> R) (f1 : rvec -> rvec) (f2 : rvec -> rmat).
Hypothesis L1 : length (f1 m) = d.
Hypothesis S2 : square d (f2 m).
Hypothesis Lsol : forall A v, length v = d -> length (solve A v) = d.
Notation md := (find_modifier solve f1 f2 normal).

Lemma modifier_square : length (qu_b md) = d /\ square d (qu_A md).
Proof.
  assert (Ln := proj1 (derivative_spec normal d SP Lm m Hd Lm)).
  unfold find_modifier, quadratic_initialize. rewrite Lm. destruct (Nat.ltb_spec 0 d); [|lia].
  destruct (Rlt_dec _ _); cbn [qu_b qu_A]; split; auto.
  1: apply vadd_length; auto; rewrite vscale_length; apply Lsol; apply vsub_length; auto.
  all: eapply half_square; eauto.
Qed.
Lemma C50_store_main : exists s F G H F' G' H',
  store_from_normal solve operatorSqrt operatorInverseSqrt f f1 f2 normal b = Ok s /\ smooth d F G H /\ smooth d F' G' H' /\
  forall y, length y = d -> List.Forall D (mvmul S (vsub y m)) ->
    store_evaluate s y b = Ok (Rmin (F y) (F' y)) /\
    (F y < F' y -> store_evaluateDerivative s y b = Ok (G y) /\ store_evaluateSecondDerivative s y b = Ok (H y)) /\
    (F' y <= F y -> store_evaluateDerivative s y b = Ok (G' y) /\ store_evaluateSecondDerivative s y b = Ok (H' y)).
Proof.
  destruct (C50_grid_main b k D x phi phi1 phi2 TB NB SB d
    (target solve operatorInverseSqrt normal d f f1 f2) Hd) as (g & t & F & G & H & Eg & Sm & _ & _ & HV).
  destruct (store_parts solve operatorSqrt operatorInverseSqrt b normal d Lm f f1 f2 g Eg) as (s & Es & Em & Egr & Ep & _).
  destruct (Ep Hd) as (E1 & E2 & E3). destruct modifier_square as [Lb SA].
  assert (Sq := quadratic_smooth md d Hd Lb SA).
  assert (Sc : smooth d (fun _ => t) (fun _ => repeat 0 d) (fun _ => repeat (repeat 0 d) d)).
  { assert (Er : forall i, (i < d)%nat -> nth i (repeat (repeat 0 d) d) [] = repeat 0 d).
    { intros i Hi. rewrite (nth_indep _ [] (repeat 0 d)) by (rewrite repeat_length; auto). apply nth_repeat. }
    constructor.
    - intros. apply grad_const.
    - intros. apply repeat_length.
    - intros z i Lz Hi. rewrite Er by auto.
      eapply grad_ext; [exact Lz| |reflexivity|apply (grad_const d 0)]. intros. symmetry. apply nth_repeat.
    - intros z i j Lz Hi Hj. rewrite !Er by auto. now rewrite !nth_repeat. }
  pose proof (smooth_minus d _ _ _ _ _ _ (smooth_lin d S m Hd SS Lm _ _ _ (smooth_minus d _ _ _ _ _ _ Sm (smooth_norm d Hd))) Sq) as A1.
  pose proof (smooth_minus d _ _ _ _ _ _ (smooth_lin d S m Hd SS Lm _ _ _ (smooth_minus d _ _ _ _ _ _ Sc (smooth_norm d Hd))) Sq) as A2.
  do 7 eexists. split; [exact Es|]. split; [exact A1|]. split; [exact A2|]. cbn beta.
  intros y Ly Dy. fold (lin S m y) in Dy.
  assert (Lz := lin_length d S m SS y).
  assert (Ez : to_grid (ss_stored s) y = lin S m y) by (unfold to_grid; rewrite E1, E3; reflexivity).
  destruct (HV (lin S m y) Lz Dy) as [V1 V2].
  unfold store_evaluate, store_evaluateDerivative, store_evaluateSecondDerivative, transform_interpolate,
    transform_interpolateDerivative, transform_interpolateSecondDerivative.
  rewrite Em, Egr, Ez, E3, Lz.
  destruct (Rlt_dec (F (lin S m y)) t) as [C|C].
  - destruct (V1 C) as (-> & -> & ->). cbn [bind]. split; [f_equal; rewrite Rmin_left by lra; reflexivity|]. split; [auto|intros; lra].
  - destruct (V2 ltac:(lra)) as (-> & -> & ->). cbn [bind]. split; [f_equal; rewrite Rmin_right by lra; reflexivity|]. split; [intros; lra|auto].
Qed.
End Store.

(** ** Where the derivative returned is the gradient of the function returned *)
Lemma grad_cont d f x g : is_gradient d f x g -> forall e, 0 < e -> exists del, 0 < del /\
  forall h, length h = d -> norm1 h < del -> Rabs (f (plus_v x h) - f x) < e.
Proof.
  intros G e He. destruct (grad_increment d f x g G) as (del & Hdel & K). pose proof (norm1_pos g) as N.
  exists (Rmin del (e / (norm1 g + 1))). assert (P : 0 < e / (norm1 g + 1)) by (apply Rdiv_lt_0_compat; lra).
  split; [now apply Rmin_glb_lt|]. intros h Lh Nh. assert (N1 : norm1 h < del) by (eapply Rlt_le_trans; [exact Nh|apply Rmin_l]).
  assert (N2 : norm1 h < e / (norm1 g + 1)) by (eapply Rlt_le_trans; [exact Nh|apply Rmin_r]).
  eapply Rle_lt_trans; [apply K; auto|]. apply (Rmult_lt_compat_l (norm1 g + 1)) in N2; [|lra].
  replace ((norm1 g + 1) * (e / (norm1 g + 1))) with e in N2 by (field; lra). exact N2.
Qed.
Lemma grad_local d f f' x g del : length x = d -> 0 < del -> (forall h, length h = d -> norm1 h < del -> f (plus_v x h) = f' (plus_v x h)) ->
  is_gradient d f x g -> is_gradient d f' x g.
Proof.
  intros Lx Hdel E [Lg H]. split; auto. intros e He. destruct (H e He) as (del' & Hdel' & K).
  exists (Rmin del del'). split; [now apply Rmin_glb_lt|]. intros h Lh Nh.
  assert (N1 : norm1 h < del) by (eapply Rlt_le_trans; [exact Nh|apply Rmin_l]).
  assert (N2 : norm1 h < del') by (eapply Rlt_le_trans; [exact Nh|apply Rmin_r]).
  assert (Ex : f x = f' x).
  { assert (P0 : plus_v x (repeat 0 d) = x).
    { apply (vec_ext _ _ d); auto; [apply plus_v_length; auto; apply repeat_length|]. intros i Hi.
      transitivity (nth i x 0 + nth i (repeat 0 d) 0); [exact (nth_vadd i x (repeat 0 d) d Lx (repeat_length 0 d) Hi)|]. rewrite nth_repeat. ring. }
    rewrite <- P0. apply E; [apply repeat_length|]. rewrite (norm1_sum _ d) by apply repeat_length.
    rewrite (sumR_ext d _ (fun _ => 0)), sumR_zero; auto. intros. rewrite nth_repeat. apply Rabs_R0. }
  rewrite <- Ex, <- E by auto. auto.
Qed.
Lemma open_lin d (D : R -> Prop) S m y : (forall u, D u -> exists e, 0 < e /\ forall v, Rabs (v - u) < e -> D v) ->
  square d S -> length m = d -> length y = d -> List.Forall D (lin S m y) ->
  exists del, 0 < del /\ forall h, length h = d -> norm1 h < del -> List.Forall D (lin S m (plus_v y h)).
Proof.
  intros Op SS Lm Ly Dy. assert (Lz := lin_length d S m SS y).
  assert (G : exists e, 0 < e /\ forall w, length w = d -> norm1 w < e -> List.Forall D (plus_v (lin S m y) w)).
  { revert Lz Dy. generalize (lin S m y). clear - Op. intros z. revert d. induction z as [|u z IH]; intros d Lz Dy.
    - exists 1. split; [lra|]. intros. constructor.
    - inversion Dy as [|? ? Du Dz]; subst. destruct (Op u Du) as (e1 & P1 & K1). destruct (IH (length z) eq_refl Dz) as (e2 & P2 & K2).
      exists (Rmin e1 e2). split; [now apply Rmin_glb_lt|]. intros [|v w] Lw Nw; [constructor|]. unfold norm1 in Nw. cbn in Nw.
      fold (norm1 w) in Nw. pose proof (norm1_pos w). pose proof (Rabs_pos v). pose proof (Rmin_l e1 e2). pose proof (Rmin_r e1 e2).
      constructor; [apply K1; cbn; replace (u + v - u) with v by ring; lra|]. apply K2; [cbn in Lw; lia|lra]. }
  destruct G as (e & He & K). pose proof (bound_T_pos d S) as B0.
  exists (e / (bound_T d S + 1)). split; [apply Rdiv_lt_0_compat; lra|]. intros h Lh Nh. rewrite (lin_plus d) by auto.
  apply K; [rewrite mvmul_length; apply SS|]. pose proof (norm1_mvmul d S SS h Lh). pose proof (norm1_pos h).
  apply (Rmult_lt_compat_l (bound_T d S + 1)) in Nh; [|lra].
  replace ((bound_T d S + 1) * (e / (bound_T d S + 1))) with e in Nh by (field; lra). lra.
Qed.

Lemma C50_gradient_main solve operatorSqrt operatorInverseSqrt b k D x phi phi1 phi2 :
  total_basis b k D x phi -> nodal k x phi -> smooth_basis b k D phi phi1 phi2 ->
  (forall u, D u -> exists e, 0 < e /\ forall v, Rabs (v - u) < e -> D v) ->
  forall normal d, (0 < d)%nat -> length (no_mean normal) = d -> square d (operatorSqrt (no_precision normal)) ->
  square d (no_precision normal) -> forall f f1 f2, length (f1 (no_mean normal)) = d -> square d (f2 (no_mean normal)) ->
  (forall A v, length v = d -> length (solve A v) = d) ->
  exists s F G H F' G' H', store_from_normal solve operatorSqrt operatorInverseSqrt f f1 f2 normal b = Ok s /\
  smooth d F G H /\ smooth d F' G' H' /\
  forall y, length y = d -> List.Forall D (mvmul (operatorSqrt (no_precision normal)) (vsub y (no_mean normal))) ->
    store_evaluate s y b = Ok (Rmin (F y) (F' y)) /\
    (F y <> F' y -> exists v A, store_evaluateDerivative s y b = Ok v /\ store_evaluateSecondDerivative s y b = Ok A /\
       is_gradient d (fun u => value_of (store_evaluate s u b)) y v /\
       forall i, (i < d)%nat -> is_gradient d (fun u => entry_of (store_evaluateDerivative s u b) i) y (nth i A [])).
Proof.
  intros TB NB SB Op normal d Hd Lm SS SP f f1 f2 L1 S2 Ls.
  destruct (C50_store_main solve operatorSqrt operatorInverseSqrt b k D x phi phi1 phi2 TB NB SB normal d Hd Lm SS SP f f1 f2 L1 S2 Ls)
    as (s & F & G & H & F' & G' & H' & Es & S1 & S1' & HV).
  exists s, F, G, H, F', G', H'. split; [exact Es|]. split; [exact S1|]. split; [exact S1'|]. intros y Ly Dy.
  split; [apply (HV y Ly Dy)|]. intros Hne.
  destruct (open_lin d D _ _ y Op SS Lm Ly Dy) as (e0 & P0 & K0).
  set (gap := Rabs (F' y - F y)). assert (Hgap : 0 < gap) by (apply Rabs_pos_lt; lra).
  destruct (grad_cont d F y _ (s_grad _ _ _ _ S1 y Ly) (gap / 2) ltac:(lra)) as (e1 & P1 & K1).
  destruct (grad_cont d F' y _ (s_grad _ _ _ _ S1' y Ly) (gap / 2) ltac:(lra)) as (e2 & P2 & K2).
  set (del := Rmin e0 (Rmin e1 e2)). assert (Hdel : 0 < del) by (repeat apply Rmin_glb_lt; auto).
  assert (Near : forall h, length h = d -> norm1 h < del -> length (plus_v y h) = d /\
    List.Forall D (mvmul (operatorSqrt (no_precision normal)) (vsub (plus_v y h) (no_mean normal))) /\
    Rabs (F (plus_v y h) - F y) < gap / 2 /\ Rabs (F' (plus_v y h) - F' y) < gap / 2).
  { intros h Lh Nh. assert (M1 := Rmin_l e0 (Rmin e1 e2)). assert (M2 := Rmin_r e0 (Rmin e1 e2)).
    assert (M3 := Rmin_l e1 e2). assert (M4 := Rmin_r e1 e2). unfold del in Nh.
    split; [apply plus_v_length; auto|]. split; [apply (K0 h Lh); lra|]. split; [apply K1|apply K2]; auto; lra. }
  destruct (HV y Ly Dy) as (V0 & V1 & V2). destruct (Rlt_dec (F y) (F' y)) as [C|C].
  - destruct (V1 C) as [E1 E2]. exists (G y), (H y). split; auto. split; auto.
    assert (C' : forall h, length h = d -> norm1 h < del -> F (plus_v y h) < F' (plus_v y h)).
    { intros h Lh Nh. destruct (Near h Lh Nh) as (_ & _ & A1 & A2). unfold gap in *. rewrite (Rabs_right (F' y - F y)) in * by lra.
      apply Rabs_def2 in A1. apply Rabs_def2 in A2. lra. }
    split.
    + apply (grad_local d F _ y _ del Ly Hdel); [|apply (s_grad _ _ _ _ S1 y Ly)]. intros h Lh Nh.
      destruct (Near h Lh Nh) as (B1 & B2 & _). destruct (HV _ B1 B2) as (-> & _ & _). cbn [value_of].
      rewrite Rmin_left; auto. left. auto.
    + intros i Hi. apply (grad_local d (fun u => nth i (G u) 0) _ y _ del Ly Hdel); [|apply (s_hess _ _ _ _ S1 y i Ly Hi)].
      intros h Lh Nh. destruct (Near h Lh Nh) as (B1 & B2 & _). destruct (HV _ B1 B2) as (_ & W & _).
      destruct (W (C' h Lh Nh)) as [-> _]. reflexivity.
  - destruct (V2 ltac:(lra)) as [E1 E2]. exists (G' y), (H' y). split; auto. split; auto.
    assert (C' : forall h, length h = d -> norm1 h < del -> F' (plus_v y h) <= F (plus_v y h)).
    { intros h Lh Nh. destruct (Near h Lh Nh) as (_ & _ & A1 & A2). unfold gap in *. rewrite (Rabs_left (F' y - F y)) in * by lra.
      apply Rabs_def2 in A1. apply Rabs_def2 in A2. lra. }
    split.
    + apply (grad_local d F' _ y _ del Ly Hdel); [|apply (s_grad _ _ _ _ S1' y Ly)]. intros h Lh Nh.
      destruct (Near h Lh Nh) as (B1 & B2 & _). destruct (HV _ B1 B2) as (-> & _ & _). cbn [value_of].
      rewrite Rmin_right; auto.
    + intros i Hi. apply (grad_local d (fun u => nth i (G' u) 0) _ y _ del Ly Hdel); [|apply (s_hess _ _ _ _ S1' y i Ly Hi)].
      intros h Lh Nh. destruct (Near h Lh Nh) as (B1 & B2 & _). destruct (HV _ B1 B2) as (_ & _ & W).
      destruct (W (C' h Lh Nh)) as [-> _]. reflexivity.
Qed.

(** ** At the bound *)
(** Quadratic Lagrange polynomials with knots 0, -1, 1. *)
Definition lag_x (l j : nat) : R := match l, j with O, _ => 0 | _, O => -1 | _, _ => 1 end.
Definition lag_phi (l j : nat) (y : R) : R := match l, j with O, _ => 1 | _, O => y * (y - 1) / 2 | _, _ => y * (y + 1) / 2 end.
Definition lag_phi1 (l j : nat) (y : R) : R := match l, j with O, _ => 0 | _, O => y - 1 / 2 | _, _ => y + 1 / 2 end.
Definition lag_phi2 (l j : nat) (y : R) : R := match l with O => 0 | _ => 1 end.
Definition lag_basis : basis :=
  mkBasis (map (fun l => mkLevel (fun j => Ok (lag_x l j)) (fun y j => Ok (lag_phi l j y))
                          (fun y j => Ok (lag_phi1 l j y)) (fun y j => Ok (lag_phi2 l j y))) (seq 0 2)) 1.
Lemma lag_d0 (y : R) : is_derive (fun y : R => 1) y 0. Proof. auto_derive; auto. Qed.
Lemma lag_d1 (y : R) : is_derive (fun y : R => y * (y - 1) / 2) y (y - 1 / 2). Proof. auto_derive; auto; lra. Qed.
Lemma lag_d2 (y : R) : is_derive (fun y : R => y * (y + 1) / 2) y (y + 1 / 2). Proof. auto_derive; auto; lra. Qed.
Lemma lag_d00 (y : R) : is_derive (fun y : R => 0) y 0. Proof. auto_derive; auto. Qed.
Lemma lag_d11 (y : R) : is_derive (fun y : R => y - 1 / 2) y 1. Proof. auto_derive; auto; lra. Qed.
Lemma lag_d22 (y : R) : is_derive (fun y : R => y + 1 / 2) y 1. Proof. auto_derive; auto; lra. Qed.
Lemma lag_facts : total_basis lag_basis 1 (fun _ => True) lag_x lag_phi /\ nodal 1 lag_x lag_phi /\
  smooth_basis lag_basis 1 (fun _ => True) lag_phi lag_phi1 lag_phi2.
Proof.
  assert (K : forall l j, (l <= 1)%nat -> (j < 2 ^ l)%nat -> (l = 0 /\ j = 0 \/ l = 1 /\ j = 0 \/ l = 1 /\ j = 1)%nat).
  { intros [|[|l]] j Hl Hj; cbn in Hj; lia. }
  split; [constructor|split; [|constructor]].
  - reflexivity.
  - intros l j Hl Hj. destruct (K l j Hl Hj) as [[-> ->]|[[-> ->]|[-> ->]]]; reflexivity.
  - auto.
  - intros l j y Hl Hj _. destruct (K l j Hl Hj) as [[-> ->]|[[-> ->]|[-> ->]]]; reflexivity.
  - intros l j l' j' Hl Hj Hl' Hj'. destruct (K l j Hl Hj) as [[-> ->]|[[-> ->]|[-> ->]]];
    destruct (K l' j' ltac:(lia) Hj') as [[-> ->]|[[-> ->]|[-> ->]]]; try lia; cbn; lra.
  - intros l j y Hl Hj _. destruct (K l j Hl Hj) as [[-> ->]|[[-> ->]|[-> ->]]]; repeat split; reflexivity.
  - intros l j y Hl Hj. destruct (K l j Hl Hj) as [[-> ->]|[[-> ->]|[-> ->]]];
    [exact (lag_d0 y)|exact (lag_d1 y)|exact (lag_d2 y)].
  - intros l j y Hl Hj. destruct (K l j Hl Hj) as [[-> ->]|[[-> ->]|[-> ->]]];
    [exact (lag_d00 y)|exact (lag_d11 y)|exact (lag_d22 y)].
  - intros l j y Hl Hj. destruct (K l j Hl Hj) as [[-> ->]|[[-> ->]|[-> ->]]]; unfold lag_phi2; apply continuity_pt_const; intros ? ?; reflexivity.
Qed.
Lemma C50_at_bound_main : exists g, grid_of (fun y => nth 0 y 0) 1 lag_basis = Ok g /\
  (forall y : R, interpolate g [y] lag_basis = Ok (Rmin y 1)) /\ interpolateDerivative g [1] lag_basis = Ok [0] /\
  ~ is_gradient 1 (fun u => value_of (interpolate g u lag_basis)) [1] [0].
Proof.
  destruct lag_facts as (TB & NB & SB).
  destruct (C49_span_main lag_basis 1 (fun _ => True) lag_x lag_phi 1 (fun y => nth 0 y 0)
    [(-1, ([1%nat], [0%nat])); (1, ([1%nat], [1%nat]))] TB NB) as (g & m & E & M1 & (ls & ps & G0 & M2) & HI).
  - repeat constructor; cbn; lia.
  - intros ls ps (L & L' & G). destruct ls as [|l [|]], ps as [|p [|]]; try discriminate. unfold place, combination, product. cbn. lra.
  - assert (G1 : grid_point 1 1 [1%nat] [1%nat]) by (repeat constructor; cbn; lia).
    assert (Me : forall m ls ps, 1 <= m -> grid_point 1 1 ls ps -> nth 0 (place lag_x ls ps) 0 = m -> m = 1).
    { clear. intros m ls ps M1 (L & L' & G) M2. enough (m <= 1) by lra. rewrite <- M2.
      destruct ls as [|l [|]], ps as [|p [|]]; try discriminate. unfold place, lag_x. cbn. destruct l as [|l], p as [|p]; cbn; lra. }
    assert (Em : m = 1) by exact (Me m ls ps (M1 _ _ G1) G0 M2).
    assert (HV : forall y : R, interpolate g [y] lag_basis = Ok (Rmin y 1)).
    { intros y. rewrite HI; [|reflexivity|repeat constructor]. rewrite Em. f_equal. f_equal. unfold combination, product. cbn. lra. }
    exists g. split; [exact E|]. split; [exact HV|]. split.
    + destruct (C50_grid_main lag_basis 1 (fun _ => True) lag_x lag_phi lag_phi1 lag_phi2 TB NB SB 1 (fun y => nth 0 y 0) ltac:(lia))
        as (g' & m' & F & G & H & E' & _ & K1 & (ls' & ps' & G0' & M2') & K2). rewrite E in E'. injection E' as <-.
      destruct (K1 _ _ G1) as [F1 M1']. assert (Em' : m' = 1) by exact (Me m' ls' ps' M1' G0' M2').
      destruct (K2 [1] eq_refl ltac:(repeat constructor)) as [_ W2]. apply W2. change (m' <= F (place lag_x [1%nat] [1%nat])).
      rewrite F1, Em'. cbn. lra.
    + intros [_ Hg]. destruct (Hg (1 / 2) ltac:(lra)) as (del & Hdel & K).
      specialize (K [- (del / 2)] eq_refl). unfold norm1 in K. cbn [map fold_right] in K. rewrite Rabs_Ropp, Rabs_right in K by lra.
      specialize (K ltac:(lra)). unfold plus_v, scalar in K. cbn [combine map fold_right fst snd] in K. rewrite !HV in K.
      cbn [value_of] in K. rewrite Rmin_left in K by lra. rewrite Rmin_left in K by lra.
      rewrite Rabs_left in K by lra. lra.
Qed.
Lemma C50_refuted_main : exists b k D x phi phi1 phi2 f g y v,
  total_basis b k D x phi /\ nodal k x phi /\ smooth_basis b k D phi phi1 phi2 /\ List.Forall D y /\ length y = 1%nat /\
  grid_of f 1 b = Ok g /\ interpolateDerivative g y b = Ok v /\
  ~ is_gradient 1 (fun u => value_of (interpolate g u b)) y v.
Proof.
  destruct lag_facts as (TB & NB & SB). destruct C50_at_bound_main as (g & E & _ & E1 & N).
  exists lag_basis, 1%nat, (fun _ => True), lag_x, lag_phi, lag_phi1, lag_phi2, (fun y => nth 0 y 0), g, [1], [0].
  split; [exact TB|]. split; [exact NB|]. split; [exact SB|]. split; [repeat constructor|]. auto.
Qed.
