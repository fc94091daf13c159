(** C86. *)
From Coq Require Import List Arith Reals Lra Lia.
From Verif Require Import Model.Base Model.Mixed Model.Vectors Model.MultiNormal Model.Quadrature Model.IntegratedFunction Model.SparseGrid Model.SparseStore Model.BasisLevel Model.LfunSR Model.Sequential
  Spec.MatrixSpec Spec.HermiteSpec Spec.LaplaceSpec Spec.StoreSpec Spec.SplineSpec Spec.FramesSpec Spec.SymmetrySpec Spec.SymmetryStoreSpec
  Proofs.QuantileMain Proofs.BasisMain Proofs.QuadratureCases Proofs.StoreCases Proofs.SymmetryStep Proofs.SymmetryCases.
Import ListNotations.
Local Open Scope R_scope.

(** * C86 *)
(** What is left when one argument is integrated over, and its two derivatives. *)
Theorem C86_integral : forall inverse determinant isProper es k lam V m o s n n' f f' f1 f1' f2 f2',
  (forall e A, inverts inverse e A) ->
  (0 < k)%nat -> es (findHermiteJacobi k) = (lam, V) -> eigendecomposition k (findHermiteJacobi k) lam V ->
  (o <= m)%nat -> length s = S m -> Forall sign s ->
  nondegenerate (S m) (no_mean n) (no_precision n) (no_variance n) -> 0 < entry (no_precision n) o o ->
  no_mean n' = flip s (no_mean n) -> no_variance n' = flip_matrix s (no_variance n) -> isProper n = true -> isProper n' = true ->
  (forall y, length y = S m -> length (f1 y) = S m /\ square (S m) (f2 y) /\
     f' y = f (flip s y) /\ f1' y = flip s (f1 (flip s y)) /\ f2' y = flip_matrix s (f2 (flip s y))) ->
  let i := make_ifun inverse determinant isProper o f f1 f2 n in
  let i' := make_ifun inverse determinant isProper o f' f1' f2' n' in
  let r := rule_initialize es k in
  forall x, length x = m ->
    if_evaluate i' r x = if_evaluate i r (flip (erase s o) x) /\
    if_evaluateDerivative i' r x = flip (erase s o) (if_evaluateDerivative i r (flip (erase s o) x)) /\
    if_evaluateSecondDerivative i' r x = flip_matrix (erase s o) (if_evaluateSecondDerivative i r (flip (erase s o) x)) /\
    length (if_evaluateDerivative i r (flip (erase s o) x)) = m /\ square m (if_evaluateSecondDerivative i r (flip (erase s o) x)).
Proof. exact C86_integral_main. Qed.

(** The integral and the store that is made of it. *)
Theorem C86_step : forall q inverse0 solveM L, is_normal_quantile q -> (1 <= L <= 25)%nat -> (forall d A, inverts inverse0 d A) -> solves_systems solveM ->
  exists b, basis_new q inverse0 solveM L = Ok b /\
  forall inverse determinant solve operatorSqrt operatorInverseSqrt es k lam V m o s n n' f f' d d' d2 d2' items,
  (forall e A, inverts inverse e A) ->
  (0 < k)%nat -> es (findHermiteJacobi k) = (lam, V) -> eigendecomposition k (findHermiteJacobi k) lam V ->
  (o <= m)%nat -> length s = S m -> Forall sign s ->
  nondegenerate (S m) (no_mean n) (no_precision n) (no_variance n) -> 0 < entry (no_precision n) o o ->
  no_mean n' = flip s (no_mean n) -> no_variance n' = flip_matrix s (no_variance n) -> normal_isProper n = true -> normal_isProper n' = true ->
  (forall y, length y = S m -> exists v w A, length w = S m /\ square (S m) A /\
     f (flip s y) = Ok v /\ f' y = Ok v /\ d (flip s y) = Ok w /\ d' y = Ok (flip s w) /\ d2 (flip s y) = Ok A /\ d2' y = Ok (flip_matrix s A)) ->
  let N := integrate_item inverse determinant n o in
  let r := rule_initialize es k in
  let i := make_ifun inverse determinant normal_isProper o (fun x => ok_or 0 (f x)) (fun x => ok_or [] (d x)) (fun x => ok_or [] (d2 x)) n in
  let A := mscale (- (1 / 2)) (msub (if_evaluateSecondDerivative i r (no_mean N)) (normal_evaluateSecondDerivative N (no_mean N))) in
  let v := vsub (if_evaluateDerivative i r (no_mean N)) (normal_evaluateDerivative N (no_mean N)) in
  ((0 < m)%nat -> ((exists C, are_inverse m A C) \/ forall a c, (a < m)%nat -> (c < m)%nat -> entry A a c = 0) /\
     finds_solution solve m A v /\ finds_solution solve m (flip_matrix (erase s o) A) (flip (erase s o) v) /\
     positive_roots m (no_precision N) (operatorSqrt (no_precision N)) (operatorInverseSqrt (no_precision N)) /\
     let P' := flip_matrix (erase s o) (no_precision N) in positive_roots m P' (operatorSqrt P') (operatorInverseSqrt P')) ->
  exists st st',
    integrate_and_store inverse determinant solve operatorSqrt operatorInverseSqrt r b f d d2 o n items = Ok (items, st) /\
    integrate_and_store inverse determinant solve operatorSqrt operatorInverseSqrt r b f' d' d2' o n' items = Ok (items, st') /\
    forall y, length y = m ->
      Forall (fun c => Rabs c <= 2 ^ 31 * bandwidth q L) (mvmul (operatorSqrt (no_precision N)) (vsub (flip (erase s o) y) (no_mean N))) ->
      exists v w A,
        store_evaluate st (flip (erase s o) y) b = Ok v /\ store_evaluate st' y b = Ok v /\
        store_evaluateDerivative st (flip (erase s o) y) b = Ok w /\ store_evaluateDerivative st' y b = Ok (flip (erase s o) w) /\
        store_evaluateSecondDerivative st (flip (erase s o) y) b = Ok A /\ store_evaluateSecondDerivative st' y b = Ok (flip_matrix (erase s o) A).
Proof. exact C86_step_main. Qed.

(** x y^2 + y^3 and x y^2 - y^3: the first effect is integrated out with two quadrature points, levelMax = 2. *)
Example C86_case : exists b st st', basis_new quantile some_inverse some_solve 2 = Ok b /\
  let r := rule_initialize (fun _ => (lam2, Q2)) 2 in
  integrate_and_store some_inverse (fun _ => 1) divide_1 root_1 inverse_root_1 r b bent bent_d bent_d2 0 shifted [7%Z] = Ok ([7%Z], st) /\
  integrate_and_store some_inverse (fun _ => 1) divide_1 root_1 inverse_root_1 r b bent' bent_d' bent_d2' 0 shifted' [7%Z] = Ok ([7%Z], st') /\
  exists v w A, store_evaluate st (flip [-1] [-1]) b = Ok v /\ store_evaluate st' [-1] b = Ok v /\
    store_evaluateDerivative st (flip [-1] [-1]) b = Ok w /\ store_evaluateDerivative st' [-1] b = Ok (flip [-1] w) /\
    store_evaluateSecondDerivative st (flip [-1] [-1]) b = Ok A /\ store_evaluateSecondDerivative st' [-1] b = Ok (flip_matrix [-1] A).
Proof.
  destruct (C86_step quantile some_inverse some_solve 2 quantile_normal ltac:(lia) some_inverse_inverts some_solve_solves) as (b & Eb & H). exists b.
  assert (Fs : Forall sign [1; -1]) by (repeat constructor; unfold sign; lra).
  assert (Pr : normal_isProper shifted = true) by (unfold normal_isProper; cbn [no_normalizer shifted]; destruct (Req_EM_T 1 0); [lra|reflexivity]).
  assert (Pr' : normal_isProper shifted' = true) by (unfold normal_isProper; cbn [no_normalizer shifted' shifted flip_normal]; destruct (Req_EM_T 1 0); [lra|reflexivity]).
  destruct (shifted_margin (fun _ => 1)) as [E1 E2].
  assert (Hb : forall y, length y = 2%nat -> length (ok_or [] (bent_d y)) = 2%nat /\ square 2 (ok_or [] (bent_d2 y)) /\
     ok_or 0 (bent' y) = ok_or 0 (bent (flip [1; -1] y)) /\ ok_or [] (bent_d' y) = flip [1; -1] (ok_or [] (bent_d (flip [1; -1] y))) /\ ok_or [] (bent_d2' y) = flip_matrix [1; -1] (ok_or [] (bent_d2 (flip [1; -1] y)))).
  { intros y Ly. destruct (bent_flipped y Ly) as (v1 & w1 & A1 & _ & _ & H1 & H2 & H3 & H4 & H5 & H6). rewrite H1, H2, H3, H4, H5, H6. cbn [ok_or].
    split; [reflexivity|]. split; [|auto]. split; [reflexivity|]. intros [|[|j]] Hj; try lia; reflexivity. }
  pose proof (C86_integral some_inverse (fun _ => 1) normal_isProper (fun _ => (lam2, Q2)) 2 lam2 Q2 1 0 [1; -1] shifted shifted' (fun x => ok_or 0 (bent x)) (fun x => ok_or 0 (bent' x)) (fun x => ok_or [] (bent_d x)) (fun x => ok_or [] (bent_d' x)) (fun x => ok_or [] (bent_d2 x)) (fun x => ok_or [] (bent_d2' x))
    some_inverse_inverts ltac:(lia) eq_refl two_point_rule ltac:(lia) eq_refl Fs shifted_nondegenerate ltac:(cbn; lra) eq_refl eq_refl Pr Pr' Hb [-1] eq_refl) as J. cbv zeta in J.
  destruct J as (_ & _ & _ & J1 & J2). cbn [erase] in J1, J2.
  assert (E0 : flip [-1] [-1] = [1]) by (unfold flip; cbn; f_equal; ring). rewrite E0 in J1, J2.
  destruct (H some_inverse (fun _ => 1) divide_1 root_1 inverse_root_1 (fun _ => (lam2, Q2)) 2%nat lam2 Q2 1%nat 0%nat [1; -1] shifted shifted'
    bent bent' bent_d bent_d' bent_d2 bent_d2' [7%Z] some_inverse_inverts ltac:(lia) eq_refl two_point_rule ltac:(lia) eq_refl Fs shifted_nondegenerate ltac:(cbn; lra) eq_refl eq_refl Pr Pr' bent_flipped) as (st & st' & T1 & T2 & T3).
  - intros _. cbn [erase]. rewrite E1 in *. unfold normal_evaluateSecondDerivative, normal_evaluateDerivative. rewrite E1, E2.
    match goal with |- context [mscale ?c ?M] => set (A := mscale c M) end. match goal with |- context [finds_solution _ _ A ?w] => set (v := w) end.
    assert (QA : square 1 A). { unfold A. apply SumLemmas.mscale_square, StoreMain.msub_square; [exact J2|]. split; [reflexivity|]. intros [|i] Hi; [reflexivity|lia]. }
    assert (Lv : length v = 1%nat) by (unfold v; apply VectorLemmas.vsub_length; [exact J1|reflexivity]).
    rewrite (flip_one A QA). split; [now apply either|]. split; [now apply divides|]. split; [apply divides; [exact QA|unfold flip; rewrite map_length, combine_length, Lv; reflexivity]|].
    rewrite flip_one by (split; [reflexivity|intros [|i] Hi; [reflexivity|lia]]). split; apply roots_1; lra.
  - exists st, st'. split; [exact Eb|]. cbn zeta. split; [exact T1|]. split; [exact T2|]. cbn [erase] in T3. apply T3; [reflexivity|]. rewrite E0, E1, E2.
    assert (0 <= 2 ^ 31 * bandwidth quantile 2).
    { apply Rmult_le_pos; [apply pow_le; lra|]. left. apply (KnotMain.bw_pos quantile (normal_quantile_like _ quantile_normal) 2). lia. }
    unfold mvmul, vdot, vsub, root_1. cbn [map combine fst snd]. constructor; [|constructor]. match goal with |- Rabs ?z <= _ => replace z with 0 by (cbn; ring) end. now rewrite Rabs_R0.
Qed.

Print Assumptions C86_integral.
Print Assumptions C86_step.
