(** C71: changing the signs of random effects together with the parameters. *)
From Coq Require Import String List Reals ZArith.
From Coquelicot Require Import Coquelicot.
From Verif Require Import Model.Base Model.Family Model.GLMM Model.SplitFrame Model.Frames Model.IS Model.HOL Model.Vectors Model.Quadrature Model.SparseGrid Model.BasisLevel Model.MultiNormal Model.LfunSR Model.Sequential
  Spec.Numbers Spec.FamilySpec Spec.GLMMSpec Spec.SplitSpec Spec.FramesSpec Spec.ISSpec Spec.HOLSpec Spec.HermiteSpec Spec.SplineSpec Spec.IntegralSpec Spec.DensitySpec Spec.LfunSpec Spec.JointSpec Spec.SequentialSpec Spec.LogSum Spec.MatrixSpec Spec.MirrorSpec Spec.Toy
  Proofs.QuantileMain Proofs.BasisMain Proofs.HOLMain Proofs.LfunCases Proofs.JointCases Proofs.DensityJoint Proofs.QuadratureCases Proofs.SequentialCases Proofs.MirrorMain Proofs.MirrorSequential Proofs.MirrorCases.
From Verif Require Spec.LaplaceSpec.
Import ListNotations.
Local Open Scope R_scope.
Notation length := List.length.

(** The parameters that are reported are such parameters for those found by the
    optimizer. *)
Theorem C71_reported : forall n m r theta beta, proper n m -> mo_re _ m = Some r -> bounds_fit r -> length theta = ntheta m ->
  exists theta' s, report_estim Rnum (rt_lower _ r) (ntheta m) (theta ++ beta) = theta' ++ beta /\ length theta' = length theta /\ mirror (frame_of m r) beta theta theta' s.
Proof. exact C71_reported_main. Qed.
Print Assumptions C71_reported.

(** Sequential reduction with an exact integral that does not change with the sign of the
    variable has the same value. *)
Theorem C71_exact : forall inverse determinant isnormal T scope eval deriv deriv2 integral, determinants 1 determinant ->
  forall fr l P nSL sr theta theta' beta s, regular fr -> no_empty fr -> (1 <= length (cs_cols (fr_Zt _ fr)))%nat -> (1 <= length theta)%nat ->
  (forall i, In i (fr_Lind _ fr) -> (1 <= i <= Z.of_nat (length theta))%Z) -> inverse_link l P ->
  length theta' = length theta -> mirror fr beta theta theta' s ->
  find_lfun_SR inverse determinant isnormal T scope eval deriv deriv2 integral fr (length theta) "binomial" (link_name l) nSL = Ok sr ->
  let S t := sr_sig inverse determinant isnormal T scope eval deriv deriv2 integral (GLMM.mkParams Rnum t beta (mkFamily l Binomial)) in
  forall LI : (R -> R) -> R, (forall t, exact_integral (S t) LI) -> (forall t, fubini (S t) LI) -> (forall f, LI (fun u => f (- u)) = LI f) ->
  forall laplace v v', lfun_SR inverse determinant isnormal T scope eval deriv deriv2 integral laplace sr (theta ++ beta) = Ok v ->
  lfun_SR inverse determinant isnormal T scope eval deriv deriv2 integral laplace sr (theta' ++ beta) = Ok v' -> v' = v.
Proof. exact C71_exact_main. Qed.
Print Assumptions C71_exact.

Example C71_exact_case : (forall p, exact_integral (node_sig two_nodes p) (logsum two_nodes) /\ fubini (node_sig two_nodes p) (logsum two_nodes)) /\
  (forall f, logsum two_nodes (fun u => f (- u)) = logsum two_nodes f) /\ mirror contests [0] [-1] [1] (signs 3) /\
  exists s ll v v', node_setup two_nodes contests 1 "binomial" "logit" 3 = Ok s /\
  node_lfun two_nodes (contests_approx ll) s [-1; 0] = Ok v /\ node_lfun two_nodes (contests_approx ll) s [1; 0] = Ok v'.
Proof. exact C71_sequential_case. Qed.

(** So has sequential reduction as it is, with one point of quadrature, if mode and
    precision change as the random effects do. *)
Theorem C71_laplace : forall q inverse0 solveM L b, is_normal_quantile q -> (1 <= L <= 25)%nat ->
  (forall d A, inverts inverse0 d A) -> solves_systems solveM -> basis_new q inverse0 solveM L = Ok b ->
  forall inverse determinant isnormal solve operatorSqrt operatorInverseSqrt u,
  (forall d A, inverts inverse d A) -> determinants 1 determinant ->
  (forall d A, (0 < d)%nat -> square d A -> square d (operatorSqrt A) /\ square d (operatorInverseSqrt A)) ->
  forall es lam V, es (findHermiteJacobi 1) = (lam, V) -> eigendecomposition 1 (findHermiteJacobi 1) lam V ->
  let r := rule_initialize es 1 in
  forall fr l P nSL sr theta theta' beta s, regular fr -> no_empty fr -> (1 <= length (cs_cols (fr_Zt _ fr)))%nat -> (1 <= length theta)%nat ->
  (forall i, In i (fr_Lind _ fr) -> (1 <= i <= Z.of_nat (length theta))%Z) -> inverse_link l P ->
  length theta' = length theta -> mirror fr beta theta theta' s ->
  sequential_setup inverse determinant isnormal solve operatorSqrt operatorInverseSqrt r b u fr (length theta) "binomial" (link_name l) nSL = Ok sr ->
  forall laplace v v' ll ll' mean mean' Q Q' Sigma, laplace (theta ++ beta) = (ll, mean, Q) -> laplace (theta' ++ beta) = (ll', mean', Q') ->
  let mu := fun e => nth (Z.to_nat e) mean 0 in let mu' := fun e => nth (Z.to_nat e) mean' 0 in
  let f := sign_of s in
  (forall e, In e (effects fr) -> mu' e = f e * mu e) -> (forall x y, In x (effects fr) -> In y (effects fr) -> Q' x y = f x * f y * Q x y) ->
  joint_precision (map (sr_scope sparse_belief stored_items) (sr_beliefs _ sr)) (effects fr) Q ->
  joint_variance (effects fr) Q Sigma -> proper_marginals determinant (effects fr) mu Sigma ->
  proper_marginals determinant (effects fr) mu' (fun x y => f x * f y * Sigma x y) ->
  sequential_lfun inverse determinant isnormal solve operatorSqrt operatorInverseSqrt r b u laplace sr (theta ++ beta) = Ok v ->
  sequential_lfun inverse determinant isnormal solve operatorSqrt operatorInverseSqrt r b u laplace sr (theta' ++ beta) = Ok v' -> v' = v.
Proof. exact C71_laplace_main. Qed.
Print Assumptions C71_laplace.

Example C71_laplace_level_case : mirror contest [0] [-1] [1] (signs 2) /\
  (forall x y, In x (effects contest) -> In y (effects contest) -> contest_Q x y = sign_of (signs 2) x * sign_of (signs 2) y * contest_Q x y) /\
  proper_marginals det_small (effects contest) zero_mean (fun x y => sign_of (signs 2) x * sign_of (signs 2) y * contest_Sigma x y) /\
  exists b s ll v v', basis_new quantile some_inverse some_solve 3 = Ok b /\
  let r := rule_initialize one_rule 1 in
  small_setup r b contest 1 "binomial" "logit" 3 = Ok s /\ scopes_of s = [[0; 1]; [0]; [1]]%Z /\
  small_lfun r b (small_approx contest_Q ll) s [-1; 0] = Ok v /\ small_lfun r b (small_approx contest_Q ll) s [1; 0] = Ok v'.
Proof. exact C71_laplace_case. Qed.

(** And with any number of points for two-level models. *)
Theorem C71_two_level : forall q inverse0 solveM L b, is_normal_quantile q -> (1 <= L <= 25)%nat ->
  (forall d A, inverts inverse0 d A) -> solves_systems solveM -> basis_new q inverse0 solveM L = Ok b ->
  forall inverse determinant isnormal solve operatorSqrt operatorInverseSqrt u,
  (forall d A, inverts inverse d A) -> determinants 1 determinant ->
  (forall d A, (0 < d)%nat -> square d A -> square d (operatorSqrt A) /\ square d (operatorInverseSqrt A)) ->
  forall es n lam V, (0 < n)%nat -> es (findHermiteJacobi n) = (lam, V) -> eigendecomposition n (findHermiteJacobi n) lam V ->
  let r := rule_initialize es n in
  forall fr l P nSL sr theta theta' beta s, regular fr -> no_empty fr -> (1 <= length (cs_cols (fr_Zt _ fr)))%nat -> (1 <= length theta)%nat ->
  (forall i, In i (fr_Lind _ fr) -> (1 <= i <= Z.of_nat (length theta))%Z) -> inverse_link l P ->
  length theta' = length theta -> mirror fr beta theta theta' s ->
  sequential_setup inverse determinant isnormal solve operatorSqrt operatorInverseSqrt r b u fr (length theta) "binomial" (link_name l) nSL = Ok sr ->
  (forall c, In c (map (sr_scope sparse_belief stored_items) (sr_beliefs _ sr)) -> (length c <= 1)%nat) ->
  forall laplace v v' ll ll' mean mean' Q Q' Sigma, laplace (theta ++ beta) = (ll, mean, Q) -> laplace (theta' ++ beta) = (ll', mean', Q') ->
  let mu := fun e => nth (Z.to_nat e) mean 0 in let mu' := fun e => nth (Z.to_nat e) mean' 0 in
  let f := sign_of s in
  (forall e, In e (effects fr) -> mu' e = f e * mu e) -> (forall x y, In x (effects fr) -> In y (effects fr) -> Q' x y = f x * f y * Q x y) ->
  joint_precision (map (sr_scope sparse_belief stored_items) (sr_beliefs _ sr)) (effects fr) Q ->
  joint_variance (effects fr) Q Sigma -> proper_marginals determinant (effects fr) mu Sigma ->
  proper_marginals determinant (effects fr) mu' (fun x y => f x * f y * Sigma x y) ->
  sequential_lfun inverse determinant isnormal solve operatorSqrt operatorInverseSqrt r b u laplace sr (theta ++ beta) = Ok v ->
  sequential_lfun inverse determinant isnormal solve operatorSqrt operatorInverseSqrt r b u laplace sr (theta' ++ beta) = Ok v' -> v' = v.
Proof. exact C71_two_level_main. Qed.
Print Assumptions C71_two_level.

Example C71_two_level_groups : mirror groups [0] [-1] [1] (signs 2) /\
  (forall x y, In x (effects groups) -> In y (effects groups) -> groups_Q x y = sign_of (signs 2) x * sign_of (signs 2) y * groups_Q x y) /\
  proper_marginals det_small (effects groups) zero_mean (fun x y => sign_of (signs 2) x * sign_of (signs 2) y * groups_Sigma x y) /\
  exists b s ll v v', basis_new quantile some_inverse some_solve 3 = Ok b /\
  let r := rule_initialize two_rule 2 in
  small_setup r b groups 1 "binomial" "logit" 3 = Ok s /\ scopes_of s = [[0]; [1]; [0]; [1]]%Z /\
  small_lfun r b (small_approx groups_Q ll) s [-1; 0] = Ok v /\ small_lfun r b (small_approx groups_Q ll) s [1; 0] = Ok v'.
Proof. exact C71_two_level_case. Qed.

(** The second-order term is the same. *)
Theorem C71_second_order : forall solve familyName linkName l n m r y w theta theta' beta s H H' G u_hat,   make_family familyName linkName = Ok (mkFamily l Binomial) -> fits n m r y w theta beta -> length theta' = length theta ->
  mirror (frame_of m r) beta theta theta' s ->
  solves solve (nrandom m) n H -> solves solve (nrandom m) n H' -> MatrixSpec.are_inverse (nrandom m) H G -> length u_hat = nrandom m ->
  flipped (nrandom m) s H H' ->
  find_epsilon_1 solve familyName linkName (theta' ++ beta) m r (flip s u_hat) H' = find_epsilon_1 solve familyName linkName (theta ++ beta) m r u_hat H.
Proof. exact C71_second_order_main. Qed.
Print Assumptions C71_second_order.

Example C71_second_order_one : forall b, fits 1 case_h case_hr [0] [1] [-1] [b] /\ mirror (frame_of case_h case_hr) [b] [-1] [1] [-1] /\
  HOLSpec.solves (fun _ B => [[4 / 5 * at_ B 0 0]]) (nrandom case_h) 1 [[5 / 4]] /\ MatrixSpec.are_inverse (nrandom case_h) [[5 / 4]] [[4 / 5]] /\
  flipped (nrandom case_h) [-1] [[5 / 4]] [[5 / 4]].
Proof. exact C71_second_order_case. Qed.

(** Importance sampling has the value that belongs to other draws: those with the signs
    changed. *)
Theorem C71_importance : forall fam n m r y w theta theta' beta s chol solve determinant mean P P' z nIS,   fits n m r y w theta beta -> length theta' = length theta -> mirror (frame_of m r) beta theta theta' s ->
  routines (nrandom m) chol solve determinant P -> routines (nrandom m) chol solve determinant P' -> flipped (nrandom m) s P P' ->
  length mean = nrandom m -> (0 < nIS)%nat -> sized (nrandom m) nIS z ->
  lfun_IS chol solve determinant z nIS fam m r (theta' ++ beta) (flip s mean) P' =
  lfun_IS chol solve determinant (flip_rows s z) nIS fam m r (theta ++ beta) mean P.
Proof. exact C71_importance_main. Qed.
Print Assumptions C71_importance.

(** So its loglikelihood, which keeps one set of draws, is another at the parameters that
    are reported than at those found: one observation of 0 with one random effect, for
    which 1/4 is the mode and 19/16 minus the second derivative. *)
Theorem C71_importance_refuted :
  fits 1 case_h case_hr [0] [1] [-1] [hb] /\ bounds_fit case_hr /\ report_estim Rnum (rt_lower _ case_hr) (ntheta case_h) [-1; hb] = [1; hb] /\
  mirror (frame_of case_h case_hr) [hb] [-1] [1] [-1] /\ routines 1 (fun _ => hR) (fun _ => hC) (fun _ => 19 / 16) hP /\
  (is_derive (fun x => log_joint 1 logistic binomial_dev case_h [0] [1] [hb] [-1] [x]) (1 / 4) 0 /\
   is_derive_n (fun x => log_joint 1 logistic binomial_dev case_h [0] [1] [hb] [-1] [x]) 2 (1 / 4) (- (19 / 16))) /\
  exists v v',
  lfun_IS (fun _ => hR) (fun _ => hC) (fun _ => 19 / 16) [[1]] 1 hfam case_h case_hr [-1; hb] [1 / 4] hP = Ok v /\
  lfun_IS (fun _ => hR) (fun _ => hC) (fun _ => 19 / 16) [[1]] 1 hfam case_h case_hr [1; hb] [- (1 / 4)] hP = Ok v' /\ v <> v'.
Proof. exact (conj (h_fits (-1) hb) (conj h_bounds (conj h_reported (conj (h_mirror hb) (conj h_routines (conj h_mode C71_importance_refuted_main)))))). Qed.
Print Assumptions C71_importance_refuted.
