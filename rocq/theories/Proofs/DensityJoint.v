(** C55 for the normal approximations of the cluster graph. *)
From Coq Require Import List Reals Lia Lra Arith ZArith Bool.
From Verif Require Import Model.Base Model.Mixed Model.ClusterGraph Model.Vectors Model.MultiNormal Model.NormalSig
  Spec.GLMMSpec Spec.MatrixSpec Spec.TreeSpec Spec.JointSpec Spec.DensitySpec
  Proofs.JointLemmas Proofs.JointBuild Proofs.DensityMain Proofs.NormalCases.
Import ListNotations.
Local Open Scope R_scope.

Lemma C55_graph inverse determinant isnormal
    (F : Type) (scope : F -> list Z) value gradient hessian integral :
  (forall d A, inverts inverse d A) ->
  let S := normal_sig inverse determinant isnormal F scope value gradient hessian integral in
  forall (mean : list R) (Q : Z -> Z -> R) (fs : list F) (items : list Z) (cg cg' : cgraph S),
  (forall f, In f fs -> NoDup (scope f)) ->
  NoDup items -> (forall x, In x items <-> exists f, In f fs /\ In x (scope f)) ->
  joint_precision (map scope fs) items Q ->
  build (S := S) fs = Ok cg -> cg_setNormalApprox cg mean Q = Ok cg' ->
  forall m, In m (cg_clusters cg') \/ In m (map e_belief (cg_edges cg')) ->
  let d := length (m_items m) in determinants d determinant ->
  integral_over d (fun x => exp (normal_evaluate (n_normal (m_normal m)) x)) (exp (INR d * (ln (sqrt (2 * PI)) - logSqrtTwoPi))).
Proof.
  intros Hinv S mean Q fs items cg cg' A1 A2 A3 A4 A5 A6 m Hm d Hd.
  destruct (C54_good inverse determinant isnormal F scope value gradient hessian integral Hinv mean Q fs items cg cg' A1 A2 A3 A4 A5 A6) as [(Sg & HS) Y].
  destruct (Y Sg HS) as [Yc Ye].
  assert (G : good determinant (fun x => nth (Z.to_nat x) mean 0) (m_items m) (n_normal (m_normal m))).
  { destruct Hm as [Hm|Hm].
    - exact (proj2 (proj2 (Yc m Hm))).
    - apply in_map_iff in Hm. destruct Hm as (e & <- & He). exact (proj2 (proj2 (Ye e He))). }
  apply (normal_integral determinant); try apply G; auto.
  rewrite (g_mean _ _ _ _ G). apply map_length.
Qed.

(** Determinants of matrices of one and two rows. *)
Definition det_small (m : rmat) : R :=
  match m with
  | [[a]] => a
  | [[a; b]; [c; d]] => a * d - b * c
  | _ => 0
  end.
Lemma square_2 A : square 2 A -> exists a b c d, A = [[a; b]; [c; d]].
Proof.
  intros [L R]. destruct A as [|r [|r' [|]]]; try discriminate.
  pose proof (R 0%nat ltac:(lia)) as R0. pose proof (R 1%nat ltac:(lia)) as R1. cbn in R0, R1.
  destruct r as [|a [|b [|]]]; try discriminate. destruct r' as [|c [|d [|]]]; try discriminate. eauto.
Qed.
Lemma det_small_2 : determinants 2 det_small.
Proof.
  split.
  - intros A B i j c HA HB Hi Hj Hne H. destruct (square_2 A HA) as (a1 & a2 & a3 & a4 & ->).
    destruct (square_2 B HB) as (b1 & b2 & b3 & b4 & ->).
    pose proof (H 0%nat 0%nat ltac:(lia) ltac:(lia)) as E1. pose proof (H 0%nat 1%nat ltac:(lia) ltac:(lia)) as E2.
    pose proof (H 1%nat 0%nat ltac:(lia) ltac:(lia)) as E3. pose proof (H 1%nat 1%nat ltac:(lia) ltac:(lia)) as E4.
    small_index i; small_index j; try congruence; unfold entry in *; cbn in *; subst; ring.
  - intros A HA H. destruct (square_2 A HA) as (a1 & a2 & a3 & a4 & ->).
    pose proof (H 0%nat 1%nat ltac:(lia) ltac:(lia)) as E. unfold entry in *. cbn in *. subst. ring.
Qed.
