(** C86. *)
From Coq Require Import List Arith ZArith Bool Lia Reals Lra.
From Verif Require Import Model.Base Model.Mixed Model.Vectors Model.MultiNormal Model.NormalSig Model.Quadrature Model.IntegratedFunction Model.SparseGrid Model.SparseStore Model.BasisLevel Model.LfunSR Model.Sequential
  Spec.GLMMSpec Spec.MatrixSpec Spec.HermiteSpec Spec.LaplaceSpec Spec.BeliefSpec Spec.NodalSpec Spec.SplineSpec Spec.GridSpec Spec.StoreSpec Spec.FramesSpec Spec.SymmetrySpec Spec.SymmetryStoreSpec
  Proofs.ListLemmas Proofs.GLMMLemmas Proofs.VectorLemmas Proofs.SumLemmas Proofs.ConditionalMain Proofs.StoreMain Proofs.SignMain Proofs.MirrorMain Proofs.SymmetricRule Proofs.BasisMain Proofs.QuantileMain Proofs.LevelMain
  Proofs.SequentialRun Proofs.SymmetryMain Proofs.SymmetryStore Proofs.SymmetryIntegral.
Import ListNotations.
Local Open Scope R_scope.

(** * The store *)
Section Store.
Variables (d : nat) (s : list R).
Hypothesis Ls : length s = d.
Hypothesis Fs : List.Forall sign s.
Variables (solve : rmat -> rvec -> rvec) (operatorSqrt operatorInverseSqrt : rmat -> rmat).
Variables n n' : mnormal.
Notation m := (no_mean n).
Notation P := (no_precision n).
Hypothesis Lm : length m = d.
Hypothesis Em : no_mean n' = flip s m.
Variables (f f' : rvec -> R) (f1 f1' : rvec -> rvec) (f2 f2' : rvec -> rmat).
Hypothesis Ef : forall y, length y = d -> f' y = f (flip s y).
Hypothesis Hd : (0 < d)%nat -> square d P /\ no_precision n' = flip_matrix s P /\
  length (f1 m) = d /\ square d (f2 m) /\ f1' (flip s m) = flip s (f1 m) /\ f2' (flip s m) = flip_matrix s (f2 m) /\
  ((exists C, are_inverse d (half_difference n f2) C) \/ forall i j, (i < d)%nat -> (j < d)%nat -> entry (half_difference n f2) i j = 0) /\
  finds_solution solve d (half_difference n f2) (difference n f1) /\
  finds_solution solve d (flip_matrix s (half_difference n f2)) (flip s (difference n f1)) /\
  positive_roots d P (operatorSqrt P) (operatorInverseSqrt P) /\
  positive_roots d (flip_matrix s P) (operatorSqrt (flip_matrix s P)) (operatorInverseSqrt (flip_matrix s P)).
Variables (b : basis) (k : nat) (D : R -> Prop) (xk : nat -> nat -> R) (phi phi1 phi2 : nat -> nat -> R -> R).
Hypothesis TB : total_basis b k D xk phi.
Hypothesis NB : nodal k xk phi.
Hypothesis SB : smooth_basis b k D phi phi1 phi2.
Hypothesis MB : mirrored k xk phi.
Notation to_z y := (mvmul (operatorSqrt P) (vsub y m)).
Lemma store_flip_gen : exists st st',
  store_from_normal solve operatorSqrt operatorInverseSqrt f f1 f2 n b = Ok st /\
  store_from_normal solve operatorSqrt operatorInverseSqrt f' f1' f2' n' b = Ok st' /\
  forall y, length y = d -> List.Forall D (to_z (flip s y)) -> List.Forall D (flip s (to_z (flip s y))) -> exists v w A,
    store_evaluate st (flip s y) b = Ok v /\ store_evaluate st' y b = Ok v /\
    store_evaluateDerivative st (flip s y) b = Ok w /\ store_evaluateDerivative st' y b = Ok (flip s w) /\
    store_evaluateSecondDerivative st (flip s y) b = Ok A /\ store_evaluateSecondDerivative st' y b = Ok (flip_matrix s A).
Proof.
  destruct (Nat.eq_dec d 0) as [Z|NZ].
  - assert (Zs : s = []) by (apply length_zero_iff_nil; congruence). assert (Zm : m = []) by (apply length_zero_iff_nil; congruence). rewrite Zs in *. rewrite Zm in Em. cbn [flip combine map] in Em.
    assert (Hz : forall y : rvec, length y = 0%nat -> f' y = f (flip [] y)) by (intros y Ly; apply Ef; congruence).
    destruct (C85_grid_gen b k D xk phi phi1 phi2 TB NB SB MB 0 (fun z => f (vadd [] (mvmul [] z)) + quadratic_value (quadratic_new 0) (vadd [] (mvmul [] z)) + 1 / 2 * vdot z z)
      (fun z => f' (vadd [] (mvmul [] z)) + quadratic_value (quadratic_new 0) (vadd [] (mvmul [] z)) + 1 / 2 * vdot z z) [] eq_refl Fs) as (g & g' & Eg & Eg' & H).
    { intros [|] Ly; [|discriminate]. cbn [flip combine map]. f_equal. f_equal. apply (Hz []). reflexivity. }
    exists (mkStore (quadratic_new 0) (mkTransform g [] [] [])), (mkStore (quadratic_new 0) (mkTransform g' [] [] [])).
    split; [transitivity (bind (bind (grid_of (fun z => f (vadd [] (mvmul [] z)) + quadratic_value (quadratic_new 0) (vadd [] (mvmul [] z)) + 1 / 2 * vdot z z) 0 b) (fun g => Ok (mkTransform g [] [] []))) (fun t => Ok (mkStore (quadratic_new 0) t)));
      [unfold store_from_normal, transform_from_normal, find_modifier, quadratic_initialize; rewrite Zm; reflexivity|rewrite Eg; reflexivity]|].
    split; [transitivity (bind (bind (grid_of (fun z => f' (vadd [] (mvmul [] z)) + quadratic_value (quadratic_new 0) (vadd [] (mvmul [] z)) + 1 / 2 * vdot z z) 0 b) (fun g => Ok (mkTransform g [] [] []))) (fun t => Ok (mkStore (quadratic_new 0) t)));
      [unfold store_from_normal, transform_from_normal, find_modifier, quadratic_initialize; rewrite Em; reflexivity|rewrite Eg'; reflexivity]|].
    intros y Ly _ _. assert (Zy : y = []) by (apply length_zero_iff_nil; congruence). rewrite Zy. clear Zy Ly y.
    destruct (H [] eq_refl ltac:(constructor) ltac:(constructor)) as (a & w & M & H1 & H2 & H3 & H4 & H5 & H6 & Lw & QM). cbn [flip combine map] in *.
    unfold store_evaluate, store_evaluateDerivative, store_evaluateSecondDerivative, transform_interpolate, transform_interpolateDerivative, transform_interpolateSecondDerivative, to_grid.
    cbn [ss_modifier ss_stored st_grid st_shift st_scale st_inverseScale mvmul map]. rewrite H1, H2, H3, H4, H5, H6. cbn [bind].
    eexists. eexists. eexists. split; [reflexivity|]. split; [reflexivity|]. split; [reflexivity|]. split; [reflexivity|]. split; reflexivity.
  - assert (Hp : (0 < d)%nat) by lia. destruct (Hd Hp) as (QP & EP & L1 & Q2 & E1 & E2 & Inv & S1 & S2 & R1 & R2).
    destruct (store_flip d Hp s Ls Fs solve operatorSqrt operatorInverseSqrt n Lm QP f f' f1 f1' f2 f2' L1 Q2 Ef E1 E2 Inv S1 S2 b k D xk phi phi1 phi2 TB NB SB MB R1 R2) as (st & st' & T1 & T2 & T3).
    exists st, st'. split; [exact T1|]. split; [|exact T3]. rewrite <- T2.
    unfold store_from_normal, transform_from_normal, find_modifier, normal_evaluateDerivative, normal_evaluateSecondDerivative. cbn [flip_normal no_mean no_precision]. rewrite Em, EP. reflexivity.
Qed.
End Store.

(** * The margin *)
Lemma margin_flip inverse determinant m o s n n' : (forall e A, inverts inverse e A) -> (o <= m)%nat -> length s = S m -> List.Forall sign s ->
  nondegenerate (S m) (no_mean n) (no_precision n) (no_variance n) -> 0 < entry (no_precision n) o o ->
  no_mean n' = flip s (no_mean n) -> no_variance n' = flip_matrix s (no_variance n) ->
  no_mean (integrate_item inverse determinant n' o) = flip (erase s o) (no_mean (integrate_item inverse determinant n o)) /\
  ((0 < m)%nat -> no_precision (integrate_item inverse determinant n' o) = flip_matrix (erase s o) (no_precision (integrate_item inverse determinant n o))).
Proof.
  intros HI Ho Ls Fs (Lm & HPV & HS & _) Hp En EV. assert (QV : square (S m) (no_variance n)) by apply HPV. assert (L2 := sr_len m o Ho s Ls).
  unfold integrate_item, getVectorWithout. rewrite En, EV, (without_flip m o Ho s Ls _ QV), (erase_flip m o Ho s Ls _ Lm).
  assert (Le := erase_length _ o m Lm Ho). rewrite (flip_len m _ L2 _ Le), Le.
  pose proof (V22_inverse _ _ m o Ho HPV Hp) as VI. assert (QW := V22_square _ _ m o Ho HPV). assert (QF := fsq m _ _ L2 QW).
  unfold setVariance. cbn [no_mean no_precision]. rewrite (HI _ _ _ VI). rewrite (proj1 QW), (proj1 QF). destruct (Nat.ltb_spec 0 m) as [L|L].
  - split; [reflexivity|]. intros _. apply (HI m). apply (fm_inverse m L _ L2 (sr_sign m o Ho s Ls Fs)). exact VI.
  - split; [|lia]. assert (Zm : m = 0%nat) by lia. rewrite Zm in L2 |- *. apply length_zero_iff_nil in L2. rewrite L2. reflexivity.
Qed.

(** * One step *)
Lemma gauss_symmetric es k lam V : (0 < k)%nat -> es (findHermiteJacobi k) = (lam, V) -> eigendecomposition k (findHermiteJacobi k) lam V -> symmetric_rule (rule_initialize es k).
Proof. intros Hk He Hed h. exact (rule_symmetric k lam V Hed Hk es He h). Qed.

Lemma C86_integral_main inverse determinant isProper es k lam V m o s n n' f f' f1 f1' f2 f2' :
  (forall e A, inverts inverse e A) ->
  (0 < k)%nat -> es (findHermiteJacobi k) = (lam, V) -> eigendecomposition k (findHermiteJacobi k) lam V ->
  (o <= m)%nat -> length s = S m -> List.Forall sign s ->
  nondegenerate (S m) (no_mean n) (no_precision n) (no_variance n) -> 0 < entry (no_precision n) o o ->
  no_mean n' = flip s (no_mean n) -> no_variance n' = flip_matrix s (no_variance n) -> isProper n = true -> isProper n' = true ->
  (forall y, length y = S m -> length (f1 y) = S m /\ square (S m) (f2 y) /\
     f' y = f (flip s y) /\ f1' y = flip s (f1 (flip s y)) /\ f2' y = flip_matrix s (f2 (flip s y))) ->
  let i := make_ifun inverse determinant isProper o f f1 f2 n in
  let i' := make_ifun inverse determinant isProper o f' f1' f2' n' in
  let r := rule_initialize es k in
  forall x, length x = m ->
    if_evaluate i' r x = if_evaluate i r (flip (erase s o) x) /\
    if_evaluateDerivative i' r x = flip (erase s o) (if_evaluateDerivative i r (flip (erase s o) x)) /\
    if_evaluateSecondDerivative i' r x = flip_matrix (erase s o) (if_evaluateSecondDerivative i r (flip (erase s o) x)) /\
    length (if_evaluateDerivative i r (flip (erase s o) x)) = m /\ square m (if_evaluateSecondDerivative i r (flip (erase s o) x)).
Proof.
  intros HI Hk He Hed Ho Ls Fs (Lm & HPV & HS & HP) Hp En EV Pn Pn' Hf i i' r x Lx. pose proof (gauss_symmetric es k lam V Hk He Hed) as Hr.
  destruct (C86_integral_lemma m o Ho s Ls Fs inverse determinant isProper r Hr n n' Lm (proj1 (proj2 HPV)) En EV Pn Pn') with (f := f) (f' := f') (f1 := f1) (f1' := f1') (f2 := f2) (f2' := f2') (x := x)
    as (A1 & (A2 & A3) & A4 & A5); auto; try (intros y Ly; apply (Hf y Ly)).
  intros _. eexists. exact (V22_inverse _ _ m o Ho HPV Hp).
Qed.

Lemma C86_step_main q inverse0 solveM L : is_normal_quantile q -> (1 <= L <= 25)%nat -> (forall d A, inverts inverse0 d A) -> solves_systems solveM ->
  exists b, basis_new q inverse0 solveM L = Ok b /\
  forall inverse determinant solve operatorSqrt operatorInverseSqrt es k lam V m o s n n' f f' d d' d2 d2' items,
  (forall e A, inverts inverse e A) ->
  (0 < k)%nat -> es (findHermiteJacobi k) = (lam, V) -> eigendecomposition k (findHermiteJacobi k) lam V ->
  (o <= m)%nat -> length s = S m -> List.Forall sign s ->
  nondegenerate (S m) (no_mean n) (no_precision n) (no_variance n) -> 0 < entry (no_precision n) o o ->
  no_mean n' = flip s (no_mean n) -> no_variance n' = flip_matrix s (no_variance n) -> normal_isProper n = true -> normal_isProper n' = true ->
  (forall y, length y = S m -> exists v w A, length w = S m /\ square (S m) A /\
     f (flip s y) = Ok v /\ f' y = Ok v /\ d (flip s y) = Ok w /\ d' y = Ok (flip s w) /\ d2 (flip s y) = Ok A /\ d2' y = Ok (flip_matrix s A)) ->
  let N := integrate_item inverse determinant n o in
  let r := rule_initialize es k in
  let i := make_ifun inverse determinant normal_isProper o (fun x => ok_or 0 (f x)) (fun x => ok_or [] (d x)) (fun x => ok_or [] (d2 x)) n in
  let A := mscale (- (1 / 2)) (msub (if_evaluateSecondDerivative i r (no_mean N)) (normal_evaluateSecondDerivative N (no_mean N))) in
  let v := vsub (if_evaluateDerivative i r (no_mean N)) (normal_evaluateDerivative N (no_mean N)) in
  ((0 < m)%nat -> ((exists C, are_inverse m A C) \/ forall a c, (a < m)%nat -> (c < m)%nat -> entry A a c = 0) /\
     finds_solution solve m A v /\ finds_solution solve m (flip_matrix (erase s o) A) (flip (erase s o) v) /\
     positive_roots m (no_precision N) (operatorSqrt (no_precision N)) (operatorInverseSqrt (no_precision N)) /\
     let P' := flip_matrix (erase s o) (no_precision N) in positive_roots m P' (operatorSqrt P') (operatorInverseSqrt P')) ->
  exists st st',
    integrate_and_store inverse determinant solve operatorSqrt operatorInverseSqrt r b f d d2 o n items = Ok (items, st) /\
    integrate_and_store inverse determinant solve operatorSqrt operatorInverseSqrt r b f' d' d2' o n' items = Ok (items, st') /\
    forall y, length y = m ->
      List.Forall (fun c => Rabs c <= 2 ^ 31 * bandwidth q L) (mvmul (operatorSqrt (no_precision N)) (vsub (flip (erase s o) y) (no_mean N))) ->
      exists v w A,
        store_evaluate st (flip (erase s o) y) b = Ok v /\ store_evaluate st' y b = Ok v /\
        store_evaluateDerivative st (flip (erase s o) y) b = Ok w /\ store_evaluateDerivative st' y b = Ok (flip (erase s o) w) /\
        store_evaluateSecondDerivative st (flip (erase s o) y) b = Ok A /\ store_evaluateSecondDerivative st' y b = Ok (flip_matrix (erase s o) A).
Proof.
  intros Hq HL Inv0 Sol0. pose proof (normal_quantile_like q Hq) as NL. pose proof (normal_quantile_fit q L Hq HL) as Fit.
  destruct (C33_full q NL L ltac:(lia) Fit inverse0 solveM (Inv0 3%nat) (Inv0 4%nat) Sol0) as (b & x & phi & p1 & p2 & Eb & TB & ND & SB & _ & _ & MB & X0).
  exists b. split; [exact Eb|]. intros inverse determinant solve oS oI es k lam V m o s n n' f f' d d' d2 d2' items HI Hk He Hed Ho Ls Fs Hn Hp En EV Pn Pn' Hf N r i A v Hd.
  assert (L2 := sr_len m o Ho s Ls). assert (F2 := sr_sign m o Ho s Ls Fs).
  set (i' := make_ifun inverse determinant normal_isProper o (fun x => ok_or 0 (f' x)) (fun x => ok_or [] (d' x)) (fun x => ok_or [] (d2' x)) n').
  assert (Hf2 : forall y, length y = S m -> length (ok_or [] (d y)) = S m /\ square (S m) (ok_or [] (d2 y)) /\
     ok_or 0 (f' y) = ok_or 0 (f (flip s y)) /\ ok_or [] (d' y) = flip s (ok_or [] (d (flip s y))) /\ ok_or [] (d2' y) = flip_matrix s (ok_or [] (d2 (flip s y)))).
  { intros y Ly. destruct (Hf y Ly) as (v1 & w1 & A1 & _ & _ & H1 & H2 & H3 & H4 & H5 & H6). rewrite H1, H2, H3, H4, H5, H6.
    destruct (Hf (flip s y) (flip_len _ s Ls y Ly)) as (v3 & w3 & A3 & G1 & G2 & _ & _ & G3 & _ & G4 & _). rewrite (flip_flip s y) in G3, G4 by (congruence || exact Fs). rewrite G3, G4. repeat split; auto; apply G2. }
  pose proof (C86_integral_main inverse determinant normal_isProper es k lam V m o s n n' (fun x => ok_or 0 (f x)) (fun x => ok_or 0 (f' x)) (fun x => ok_or [] (d x)) (fun x => ok_or [] (d' x)) (fun x => ok_or [] (d2 x)) (fun x => ok_or [] (d2' x)) HI Hk He Hed Ho Ls Fs Hn Hp En EV Pn Pn' Hf2) as J. cbv zeta in J. fold i i' r in J.
  destruct (margin_flip inverse determinant m o s n n' HI Ho Ls Fs Hn Hp En EV) as [M1 M2]. destruct (margin_normal inverse determinant HI o m n Ho Hn Hp) as (_ & LN & QN). fold N in M1, M2, LN, QN.
  set (N' := integrate_item inverse determinant n' o) in *.
  assert (QP' : (0 < m)%nat -> square m (no_precision N)) by exact QN.
  destruct (store_flip_gen m (erase s o) L2 F2 solve oS oI N N' LN M1 (if_evaluate i r) (if_evaluate i' r) (if_evaluateDerivative i r) (if_evaluateDerivative i' r) (if_evaluateSecondDerivative i r) (if_evaluateSecondDerivative i' r))
    with (b := b) (k := L) (D := fun v => v - x L 0%nat < 2 ^ 32 * bandwidth q L) (xk := x) (phi := phi) (phi1 := p1) (phi2 := p2) as (st & st' & T1 & T2 & T3); auto.
  - intros y Ly. apply (J y Ly).
  - intros Hm. destruct (Hd Hm) as (D1 & D2 & D3 & D4 & D5). assert (LfN := flip_len m _ L2 _ LN). destruct (J _ LfN) as (_ & J2 & J3 & J4 & J5). rewrite (flip_flip _ (no_mean N)) in J2, J3, J4, J5 by (congruence || exact F2).
    split; [auto|]. split; [auto|]. split; [exact J4|]. split; [exact J5|]. split; [exact J2|]. split; [exact J3|]. split; [exact D1|]. split; [exact D2|]. split; [exact D3|]. split; [exact D4|exact D5].
  - exists st, st'. unfold integrate_and_store. cbv zeta. fold i i' N N'. rewrite T1, T2. cbn [bind]. split; [reflexivity|]. split; [reflexivity|]. intros y Ly Hy.
    assert (K : forall z, List.Forall (fun v => Rabs v <= 2 ^ 31 * bandwidth q L) z -> List.Forall (fun v => v - x L 0%nat < 2 ^ 32 * bandwidth q L) z).
    { intros z. apply List.Forall_impl. intros c Hc. apply (in_both (2 ^ 31 * bandwidth q L)); [exact X0|exact Hc|simpl; ring]. }
    apply T3; auto. apply K. now apply flip_bound.
Qed.
