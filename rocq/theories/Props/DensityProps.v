(** Property C55.  Proofs are in Proofs/DensityMain.v and DensityJoint.v. *)
From Coq Require Import List Reals Lia Lra Arith ZArith Bool.
From Verif Require Import Model.Base Model.Mixed Model.ClusterGraph Model.Vectors Model.MultiNormal Model.NormalSig
  Spec.GLMMSpec Spec.MatrixSpec Spec.TreeSpec Spec.JointSpec Spec.DensitySpec
  Proofs.DensityMain Proofs.DensityJoint Proofs.JointCases Proofs.NormalCases Proofs.Constants.
Import ListNotations.
Local Open Scope R_scope.

(** C55: however the normal was made, exp(evaluate) integrates to one, up to the
    rounding of the constant in initializeNormalizer. *)
Theorem C55_density : forall inverse determinant solve d n, determinants d determinant ->
  (exists mean P, n = normal_given inverse determinant mean P) \/
  (exists location g H, length location = d /\ n = normal_from_derivatives inverse determinant solve location g H) \/
  (exists a b subset, n = multiplySubset inverse determinant a b subset) \/
  (exists a b subset, n = divideSubset inverse determinant a b subset) \/
  (exists a items, n = computeMarginal inverse determinant a items) \/
  (exists a item, n = integrate_item inverse determinant a item) ->
  length (no_mean n) = d -> square d (no_precision n) -> symmetric d (no_precision n) -> positive d (no_precision n) ->
  integral_over d (fun x => exp (normal_evaluate n x)) (exp (INR d * (ln (sqrt (2 * PI)) - logSqrtTwoPi))).
Proof. exact C55_main. Qed.
Print Assumptions C55_density.

(** The rounding: the constant is a little too small. *)
Theorem C55_constant : 7 / 10 ^ 17 < ln (sqrt (2 * PI)) - logSqrtTwoPi < 8 / 10 ^ 17.
Proof. exact log_constant. Qed.
Print Assumptions C55_constant.

(** A normal with two correlated components. *)
Example C55_case : determinants 2 det_small /\
  let n := normal_given inv_small det_small [1; 2] [[2; 1]; [1; 2]] in
  length (no_mean n) = 2%nat /\ square 2 (no_precision n) /\ symmetric 2 (no_precision n) /\ positive 2 (no_precision n).
Proof.
  split; [exact det_small_2|]. split; [reflexivity|]. split; [|split].
  - split; [reflexivity|intros i Hi; small_index i; reflexivity].
  - intros i j Hi Hj. small_index i; small_index j; reflexivity.
  - intros x Lx (i & Hi & Zi). destruct x as [|a [|b [|]]]; try discriminate. unfold quad, sumR, entry. cbn.
    assert (0 < a * a \/ 0 < b * b) by (small_index i; [left|right]; exact (Rlt_0_sqr _ Zi)).
    assert (0 <= (a + b) * (a + b)) by apply Rle_0_sqr. assert (0 <= a * a) by apply Rle_0_sqr. assert (0 <= b * b) by apply Rle_0_sqr.
    nra.
Qed.

(** The normal approximations of clusters and edges after setNormalApprox. *)
Theorem C55_clusters_and_edges : forall inverse determinant isnormal
    (F : Type) (scope : F -> list Z) value gradient hessian integral,
  (forall d A, inverts inverse d A) ->
  let S := normal_sig inverse determinant isnormal F scope value gradient hessian integral in
  forall (mean : list R) (Q : Z -> Z -> R) (fs : list F) (items : list Z) (cg cg' : cgraph S),
  (forall f, In f fs -> NoDup (scope f)) ->
  NoDup items -> (forall x, In x items <-> exists f, In f fs /\ In x (scope f)) ->
  joint_precision (map scope fs) items Q ->
  build (S := S) fs = Ok cg -> cg_setNormalApprox cg mean Q = Ok cg' ->
  forall m, In m (cg_clusters cg') \/ In m (map e_belief (cg_edges cg')) ->
  let d := length (m_items m) in determinants d determinant ->
  integral_over d (fun x => exp (normal_evaluate (n_normal (m_normal m)) x)) (exp (INR d * (ln (sqrt (2 * PI)) - logSqrtTwoPi))).
Proof. exact C55_graph. Qed.
Print Assumptions C55_clusters_and_edges.

(** The chain of C54. *)
Example C55_graph_case : exists cg cg' c, build (S := chain_sig) chain = Ok cg /\
  cg_setNormalApprox cg chain_mean chain_Q = Ok cg' /\ nth_error (cg_clusters cg') 0 = Some c /\
  determinants (length (m_items c)) det_small.
Proof.
  destruct chain_build as (cg & cg' & E1 & E2 & Ic).
  destruct (cg_clusters cg') as [|c l] eqn:Ec; [discriminate|].
  exists cg, cg', c. rewrite Ec. repeat split; auto; injection Ic as Ic _; rewrite Ic; apply det_small_2.
Qed.
