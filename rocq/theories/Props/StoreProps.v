(** C31, C49, C50: the sparse grid store, in exact arithmetic. *)
From Coq Require Import List Reals Lia Lra Arith.
From Verif Require Import Model.Base Model.SparseGrid Model.Vectors Model.MultiNormal Model.Quadrature Model.Margin Model.BasisLevel Model.SparseStore
  Spec.GLMMSpec Spec.MatrixSpec Spec.Calculus Spec.HermiteSpec Spec.LaplaceSpec Spec.StoreSpec Spec.NodalSpec Spec.GridSpec Spec.SplineSpec
  Proofs.QuantileMain Proofs.BasisMain Proofs.SparseMain Proofs.GridSpan Proofs.StoreMain Proofs.StoreSmooth Proofs.StoreCases Proofs.NormalCases Proofs.QuadratureCases.
Import ListNotations.
Local Open Scope R_scope.

(** * C31 *)
(** f plus the modifier has at the mean the first and second derivatives of the
    normal. *)
Theorem C31_modifier : forall solve normal d f f1 f2,
  (0 < d)%nat -> length (no_mean normal) = d ->
  square d (no_precision normal) -> symmetric d (no_precision normal) -> smooth d f f1 f2 ->
  let H := mscale (- (1 / 2)) (msub (f2 (no_mean normal)) (normal_evaluateSecondDerivative normal (no_mean normal))) in
  let g := vsub (f1 (no_mean normal)) (normal_evaluateDerivative normal (no_mean normal)) in
  finds_solution solve d H g -> (exists v, solves_system d H g v) ->
  let q := find_modifier solve f1 f2 normal in
  smooth d (fun x => f x + quadratic_value q x) (fun x => vadd (f1 x) (quadratic_derivative q x))
           (fun x => madd (f2 x) (quadratic_secondDerivative q x)) /\
  vadd (f1 (no_mean normal)) (quadratic_derivative q (no_mean normal)) = normal_evaluateDerivative normal (no_mean normal) /\
  madd (f2 (no_mean normal)) (quadratic_secondDerivative q (no_mean normal)) = normal_evaluateSecondDerivative normal (no_mean normal).
Proof. exact C31_modifier_main. Qed.

(** What is read back at the image of a point of the grid is what was stored. *)
Theorem C31_exact : forall solve operatorSqrt operatorInverseSqrt b k D x phi,
  total_basis b k D x phi -> nodal k x phi ->
  forall normal d, length (no_mean normal) = d -> forall f f1 f2, (0 < d)%nat ->
  are_inverse d (operatorSqrt (no_precision normal)) (operatorInverseSqrt (no_precision normal)) ->
  exists s, store_from_normal solve operatorSqrt operatorInverseSqrt f f1 f2 normal b = Ok s /\
    forall ls ps, grid_point d k ls ps ->
      let y := vadd (no_mean normal) (mvmul (operatorInverseSqrt (no_precision normal)) (place x ls ps)) in
      store_evaluate s y b = Ok (f y).
Proof. exact C31_exact_main. Qed.

(** With the basis of the code, one of these images is the mean, so with one point
    of quadrature the normalizing constant is Laplace's approximation (C30). *)
Theorem C31_laplace : forall q inverse solveM L, is_normal_quantile q -> (1 <= L <= 25)%nat ->
  (forall d A, inverts inverse d A) -> solves_systems solveM ->
  forall inverse' determinant isProper solve operatorSqrt operatorInverseSqrt es lam V,
  es (findHermiteJacobi 1) = (lam, V) -> eigendecomposition 1 (findHermiteJacobi 1) lam V ->
  (forall d A, (0 < d)%nat -> square d A -> square d (operatorSqrt A) /\ square d (operatorInverseSqrt A)) ->
  exists b, basis_new q inverse solveM L = Ok b /\ forall fb d,
  (forall k A, (k < d)%nat -> inverts inverse' k A) ->
  nondegenerate d (no_mean (fb_normal fb)) (no_precision (fb_normal fb)) (no_variance (fb_normal fb)) ->
  (forall k, (k < d)%nat ->
     isProper (Nat.iter k (fun N => normal_without inverse' determinant N 0) (fb_normal fb)) = true) ->
  belief_logNormalizingConstant inverse' determinant isProper
    (sparse_storage solve operatorSqrt operatorInverseSqrt b) (rule_initialize es 1) fb
  = laplace d (fb_value fb) (no_mean (fb_normal fb)) (no_precision (fb_normal fb)) + INR d * ln (sqrtPi / sqrt PI).
Proof. exact laplace_store. Qed.

(** The exponential function stored over the standard normal. *)
Example C31_case : smooth 1 (fun x => exp (nth 0 x 0)) (fun x => [exp (nth 0 x 0)]) (fun x => [[exp (nth 0 x 0)]]) /\
  let H := mscale (- (1 / 2)) (msub [[exp 0]] (normal_evaluateSecondDerivative unit_normal [0])) in
  let g := vsub [exp 0] (normal_evaluateDerivative unit_normal [0]) in
  finds_solution divide_1 1 H g /\ solves_system 1 H g [-1] /\
  are_inverse 1 [[1]] [[1]] /\
  exists b x phi, basis_new quantile some_inverse some_solve 3 = Ok b /\
    total_basis b 3 (fun y => y - x 3%nat 0%nat < 2 ^ 32 * bandwidth quantile 3) x phi /\ nodal 3 x phi.
Proof.
  split; [exact exp_smooth|]. cbv zeta.
  assert (E : forall v, solves_system 1 (mscale (- (1 / 2)) (msub [[exp 0]] (normal_evaluateSecondDerivative unit_normal [0])))
    (vsub [exp 0] (normal_evaluateDerivative unit_normal [0])) [v] <-> v = -1).
  { intros v. unfold solves_system, sumR, entry. cbn. rewrite exp_0. split.
    - intros [_ H]. specialize (H 0%nat ltac:(lia)). cbn in H. lra.
    - intros ->. split; [reflexivity|]. intros [|i] Hi; [|lia]. cbn. lra. }
  split; [|split; [|split]].
  - intros _. apply E. unfold entry. cbn. rewrite exp_0. field.
  - now apply E.
  - split; [split; [reflexivity|intros [|i] Hi; [reflexivity|lia]]|].
    split; [split; [reflexivity|intros [|i] Hi; [reflexivity|lia]]|].
    intros [|i] [|j] Hi Hj; try lia. unfold row_col, sumR, entry, unit_entry. cbn. lra.
  - destruct (real_basis quantile some_inverse some_solve 3 quantile_normal ltac:(lia) some_inverse_inverts some_solve_solves)
      as (b & x & phi & p1 & p2 & H1 & H2 & H3 & _). exists b, x, phi. auto.
Qed.
Example C31_laplace_case : exists b, basis_new quantile some_inverse some_solve 3 = Ok b /\
  belief_logNormalizingConstant inv_small (fun _ => 1) (fun _ => true) (sparse_storage divide_1 (fun A => A) (fun A => A) b)
    (rule_initialize es1 1) tilted_belief
  = laplace 2 (fb_value tilted_belief) (no_mean tilted) (no_precision tilted) + INR 2 * ln (sqrtPi / sqrt PI).
Proof.
  destruct (C31_laplace quantile some_inverse some_solve 3 quantile_normal ltac:(lia) some_inverse_inverts some_solve_solves
    inv_small (fun _ => 1) (fun _ => true) divide_1 (fun A => A) (fun A => A) es1 [0] [[1]] eq_refl one_point_rule (fun d A _ H => conj H H))
    as (b & E & H). exists b. split; [exact E|].
  apply (H tilted_belief 2%nat inv_small_below tilted_nondegenerate (fun _ _ => eq_refl)).
Qed.

(** * C49 *)
(** Combinations of products of basis functions are reproduced, up to the bound. *)
Theorem C49_span : forall b k D x phi d f terms, total_basis b k D x phi -> nodal k x phi ->
  List.Forall (fun t => grid_point d k (fst (snd t)) (snd (snd t))) terms ->
  (forall ls ps, grid_point d k ls ps -> f (place x ls ps) = combination phi terms (place x ls ps)) ->
  exists g m, grid_of f d b = Ok g /\
    (forall ls ps, grid_point d k ls ps -> f (place x ls ps) <= m) /\ (exists ls ps, grid_point d k ls ps /\ f (place x ls ps) = m) /\
    forall y, length y = d -> List.Forall D y -> interpolate g y b = Ok (Rmin (combination phi terms y) m).
Proof. exact C49_span_main. Qed.

(** The store is exact everywhere for quadratic functions, if the normal used has
    the roots that operatorSqrt and operatorInverseSqrt give. *)
Theorem C49_quadratic : forall solve operatorSqrt operatorInverseSqrt b k D x phi,
  total_basis b k D x phi -> nodal k x phi -> (forall y, phi 0%nat 0%nat y = 1) ->
  forall normal d, (0 < d)%nat -> length (no_mean normal) = d ->
  square d (no_precision normal) -> symmetric d (no_precision normal) ->
  matrix_roots d (no_precision normal) (operatorSqrt (no_precision normal)) (operatorInverseSqrt (no_precision normal)) ->
  forall c g H, length g = d -> square d H -> symmetric d H ->
  forall f f1 f2, (forall y, length y = d -> f y = quadratic_function d c g H (no_mean normal) y) ->
  f1 (no_mean normal) = g -> f2 (no_mean normal) = H ->
  let A := mscale (- (1 / 2)) (msub (f2 (no_mean normal)) (normal_evaluateSecondDerivative normal (no_mean normal))) in
  finds_solution solve d A g -> (exists v, solves_system d A g v) ->
  exists s, store_from_normal solve operatorSqrt operatorInverseSqrt f f1 f2 normal b = Ok s /\
    forall y, length y = d -> List.Forall D (mvmul (operatorSqrt (no_precision normal)) (vsub y (no_mean normal))) ->
      store_evaluate s y b = Ok (f y).
Proof. exact C49_quadratic_main. Qed.

(** A saddle, stored over a normal with different variances. *)
Example C49_case : exists b s, basis_new quantile some_inverse some_solve 2 = Ok b /\
  store_from_normal (fun _ _ => saddle_solution) (fun _ => [[2; 0]; [0; 3]]) (fun _ => [[1 / 2; 0]; [0; 1 / 3]])
    (quadratic_function 2 3 [1; -1] [[0; 1]; [1; 0]] [1; 0]) (fun _ => [1; -1]) (fun _ => [[0; 1]; [1; 0]]) diag_normal b = Ok s /\
  store_evaluate s [1 / 2; -7] b = Ok (3 - 1 / 2 + 7 + 7 / 2).
Proof.
  destruct (real_basis quantile some_inverse some_solve 2 quantile_normal ltac:(lia) some_inverse_inverts some_solve_solves)
    as (b & x & phi & p1 & p2 & E & TB & NB & _ & X0 & P0). exists b.
  assert (BW : 0 < bandwidth quantile 2) by (apply KnotMain.bw_pos; [apply normal_quantile_like, quantile_normal|lia]).
  destruct (C49_quadratic (fun _ _ => saddle_solution) (fun _ => [[2; 0]; [0; 3]]) (fun _ => [[1 / 2; 0]; [0; 1 / 3]])
    b 2 _ x phi TB NB P0 diag_normal 2 ltac:(lia) eq_refl) with (c := 3) (g := [1; -1]) (H := [[0; 1]; [1; 0]])
    (f := quadratic_function 2 3 [1; -1] [[0; 1]; [1; 0]] [1; 0]) (f1 := fun _ : list R => [1; -1]) (f2 := fun _ : list R => [[0; 1]; [1; 0]])
    as (s & Es & Hs); auto.
  - split; [reflexivity|intros [|[|i]] Hi; try reflexivity; lia].
  - intros [|[|i]] [|[|j]] Hi Hj; try lia; reflexivity.
  - exact diag_roots.
  - split; [reflexivity|intros [|[|i]] Hi; try reflexivity; lia].
  - intros [|[|i]] [|[|j]] Hi Hj; try lia; reflexivity.
  - intros _. exact saddle_solved.
  - exists saddle_solution. exact saddle_solved.
  - exists s. split; [exact E|]. split; [exact Es|]. rewrite Hs; auto.
    + f_equal. unfold quadratic_function, quad, sumR, entry. cbn. lra.
    + (* far below the end of the domain *)
      assert (XL : forall z, z <= 0 -> z - x 2%nat 0%nat < 2 ^ 32 * bandwidth quantile 2).
      { intros z Hz. pose proof (tb_domain _ _ _ _ _ TB 0%nat 0%nat ltac:(lia) ltac:(simpl; lia)) as T. rewrite X0 in T. lra. }
      unfold mvmul, vdot, vsub, map2. cbn. repeat constructor; apply XL; lra.
Qed.

(** * C50 *)
(** The interpolant is a function with two derivatives that agrees with f on the
    grid, cut off at the largest value on the grid; below this bound the derivatives
    returned are those of that function, and elsewhere they are 0. *)
Theorem C50_grid : forall b k D x phi phi1 phi2,
  total_basis b k D x phi -> nodal k x phi -> smooth_basis b k D phi phi1 phi2 ->
  forall d f, (0 < d)%nat ->
  exists g m F G H, grid_of f d b = Ok g /\ smooth d F G H /\
    (forall ls ps, grid_point d k ls ps -> F (place x ls ps) = f (place x ls ps) /\ f (place x ls ps) <= m) /\
    (exists ls ps, grid_point d k ls ps /\ f (place x ls ps) = m) /\
    forall y, length y = d -> List.Forall D y ->
      (F y < m -> interpolate g y b = Ok (F y) /\ interpolateDerivative g y b = Ok (G y) /\ interpolateSecondDerivative g y b = Ok (H y)) /\
      (m <= F y -> interpolate g y b = Ok m /\ interpolateDerivative g y b = Ok (repeat 0 d) /\
                   interpolateSecondDerivative g y b = Ok (repeat (repeat 0 d) d)).
Proof. exact C50_grid_main. Qed.

(** The store is the smaller of two functions with two derivatives, and where they
    differ the vector returned is the gradient of the function returned and the
    matrix returned its Hessian. *)
Theorem C50_store : forall solve operatorSqrt operatorInverseSqrt b k D x phi phi1 phi2,
  total_basis b k D x phi -> nodal k x phi -> smooth_basis b k D phi phi1 phi2 ->
  (forall u, D u -> exists e, 0 < e /\ forall v, Rabs (v - u) < e -> D v) ->
  forall normal d, (0 < d)%nat -> length (no_mean normal) = d -> square d (operatorSqrt (no_precision normal)) ->
  square d (no_precision normal) -> forall f f1 f2, length (f1 (no_mean normal)) = d -> square d (f2 (no_mean normal)) ->
  (forall A v, length v = d -> length (solve A v) = d) ->
  exists s F G H F' G' H', store_from_normal solve operatorSqrt operatorInverseSqrt f f1 f2 normal b = Ok s /\
  smooth d F G H /\ smooth d F' G' H' /\
  forall y, length y = d -> List.Forall D (mvmul (operatorSqrt (no_precision normal)) (vsub y (no_mean normal))) ->
    store_evaluate s y b = Ok (Rmin (F y) (F' y)) /\
    (F y <> F' y -> exists v A, store_evaluateDerivative s y b = Ok v /\ store_evaluateSecondDerivative s y b = Ok A /\
       is_gradient d (fun u => value_of (store_evaluate s u b)) y v /\
       forall i, (i < d)%nat -> is_gradient d (fun u => entry_of (store_evaluateDerivative s u b) i) y (nth i A [])).
Proof. exact C50_gradient_main. Qed.

(** Where they meet, as at the point of the grid with the largest value, what is
    returned need not be a derivative. *)
Theorem C50_at_bound_refuted : exists b k D x phi phi1 phi2 f g y v,
  total_basis b k D x phi /\ nodal k x phi /\ smooth_basis b k D phi phi1 phi2 /\ List.Forall D y /\ length y = 1%nat /\
  grid_of f 1 b = Ok g /\ interpolateDerivative g y b = Ok v /\
  ~ is_gradient 1 (fun u => value_of (interpolate g u b)) y v.
Proof. exact C50_refuted_main. Qed.

(** The exponential function, stored over the standard normal with the basis of the
    code. *)
Example C50_case : exists b x phi phi1 phi2, basis_new quantile some_inverse some_solve 3 = Ok b /\
  let D := fun y => y - x 3%nat 0%nat < 2 ^ 32 * bandwidth quantile 3 in
  total_basis b 3 D x phi /\ nodal 3 x phi /\ smooth_basis b 3 D phi phi1 phi2 /\
  (forall u, D u -> exists e, 0 < e /\ forall v, Rabs (v - u) < e -> D v) /\ List.Forall D (mvmul [[1]] (vsub [0] [0])) /\
  square 1 (no_precision unit_normal) /\ (forall A v, length v = 1%nat -> length (divide_1 A v) = 1%nat) /\
  exists s, store_from_normal divide_1 (fun A => A) (fun A => A) (fun x => exp (nth 0 x 0)) (fun x => [exp (nth 0 x 0)])
    (fun x => [[exp (nth 0 x 0)]]) unit_normal b = Ok s.
Proof.
  destruct (real_basis quantile some_inverse some_solve 3 quantile_normal ltac:(lia) some_inverse_inverts some_solve_solves)
    as (b & x & phi & p1 & p2 & E & TB & NB & SB & X0 & P0). exists b, x, phi, p1, p2. split; [exact E|]. intros D.
  assert (Op : forall u, D u -> exists e, 0 < e /\ forall v, Rabs (v - u) < e -> D v).
  { intros u Du. unfold D in Du. exists (2 ^ 32 * bandwidth quantile 3 - (u - x 3%nat 0%nat)). split; [lra|]. intros v Hv.
    apply Rabs_def2 in Hv. unfold D. lra. }
  assert (SU : square 1 (no_precision unit_normal)) by (split; [reflexivity|intros [|i] Hi; [reflexivity|lia]]).
  assert (LD : forall A v, length v = 1%nat -> length (divide_1 A v) = 1%nat) by (intros A [|a [|]] L; try discriminate; reflexivity).
  split; [exact TB|]. split; [exact NB|]. split; [exact SB|]. split; [exact Op|]. split; [|split; [exact SU|split; [exact LD|]]].
  - pose proof (tb_domain _ _ _ _ _ TB 0%nat 0%nat ltac:(lia) ltac:(simpl; lia)) as T. rewrite X0 in T.
    unfold mvmul, vdot, vsub, map2. cbn. repeat constructor. unfold D. lra.
  - destruct (C50_store divide_1 (fun A => A) (fun A => A) b 3 D x phi p1 p2 TB NB SB Op unit_normal 1 ltac:(lia) eq_refl SU SU
      (fun x => exp (nth 0 x 0)) (fun x => [exp (nth 0 x 0)]) (fun x => [[exp (nth 0 x 0)]]) eq_refl) as (s & F & G & H & F' & G' & H' & Es & _); auto.
    + split; [reflexivity|intros [|i] Hi; [reflexivity|lia]].
    + exists s. exact Es.
Qed.

Print Assumptions C31_modifier.
Print Assumptions C31_exact.
Print Assumptions C31_laplace.
Print Assumptions C49_span.
Print Assumptions C49_quadratic.
Print Assumptions C50_grid.
Print Assumptions C50_store.
Print Assumptions C50_at_bound_refuted.
