(** Property C54.  Proofs are in Proofs/PosDef.v, JointLemmas.v, JointForms.v,
    JointMain.v and JointBuild.v, the case in Proofs/JointCases.v. *)
From Coq Require Import List Reals Lia Lra Arith ZArith Bool.
From Verif Require Import Model.Base Model.Mixed Model.ClusterGraph Model.Vectors Model.MultiNormal Model.NormalSig
  Spec.GLMMSpec Spec.MatrixSpec Spec.TreeSpec Spec.JointSpec Proofs.DensityJoint Proofs.JointBuild Proofs.JointCases.
Import ListNotations.
Local Open Scope R_scope.

(** C54. *)
Theorem C54_normals_are_marginals : forall inverse determinant isnormal
    (F : Type) (scope : F -> list Z) value gradient hessian integral,
  (forall d A, inverts inverse d A) ->
  let S := normal_sig inverse determinant isnormal F scope value gradient hessian integral in
  forall (mean : list R) (Q : Z -> Z -> R) (fs : list F) (items : list Z) (cg cg' : cgraph S),
  (forall f, In f fs -> NoDup (scope f)) ->
  NoDup items -> (forall x, In x items <-> exists f, In f fs /\ In x (scope f)) ->
  joint_precision (map scope fs) items Q ->
  build (S := S) fs = Ok cg -> cg_setNormalApprox cg mean Q = Ok cg' ->
  (exists Sigma, joint_variance items Q Sigma) /\
  forall Sigma, joint_variance items Q Sigma ->
    let mu := fun x => nth (Z.to_nat x) mean 0 in
    (forall c, In c (cg_clusters cg') ->
       n_items (m_normal c) = m_items c /\ marginal_normal mu Sigma (m_items c) (n_normal (m_normal c))) /\
    (forall e, In e (cg_edges cg') ->
       n_items (m_normal (e_belief e)) = m_items (e_belief e) /\
       marginal_normal mu Sigma (m_items (e_belief e)) (n_normal (m_normal (e_belief e)))).
Proof.
  intros. eapply C54_main; eauto.
Qed.
Print Assumptions C54_normals_are_marginals.

(** Items 1, 2, 3 in a chain, precision 2 on the diagonal and 1 beside it: the
    variances of the first cluster take item 3 into account. *)
Example C54_case : exists cg cg' c, build (S := chain_sig) chain = Ok cg /\
  cg_setNormalApprox cg chain_mean chain_Q = Ok cg' /\ nth_error (cg_clusters cg') 0 = Some c /\ m_items c = [1; 2]%Z /\
  no_mean (n_normal (m_normal c)) = [5; 6] /\
  entry (no_variance (n_normal (m_normal c))) 0 0 = 3 / 4 /\
  entry (no_variance (n_normal (m_normal c))) 0 1 = - (1 / 2) /\
  entry (no_variance (n_normal (m_normal c))) 1 1 = 1.
Proof.
  destruct chain_build as (cg & cg' & E1 & E2 & Ic).
  assert (Nf : forall f, In f chain -> NoDup f) by (intros f [<-|[<-|[]]]; repeat constructor; simpl; intuition discriminate).
  assert (Ni : NoDup [1; 2; 3]%Z) by (repeat constructor; simpl; intuition discriminate).
  assert (Js : joint_precision (map (fun s => s) chain) [1; 2; 3]%Z chain_Q) by exact chain_joint.
  destruct (C54_normals_are_marginals inv_all det_small (fun _ => true) (list Z) (fun s => s) (fun _ _ => 1) _ _ _
    inv_all_inverts chain_mean chain_Q chain [1; 2; 3]%Z cg cg' Nf Ni chain_items Js E1 E2) as [_ M].
  destruct (M chain_Sigma chain_variance) as [Mc _]. clear M.
  assert (Hc : exists c, nth_error (cg_clusters cg') 0 = Some c /\ m_items c = [1; 2]%Z).
  { destruct (cg_clusters cg') as [|c l]; [discriminate|]. exists c. cbn [map] in Ic. injection Ic as Ic _. auto. }
  destruct Hc as (c & Nc & Hi).
  assert (Mk : marginal_normal (fun x => nth (Z.to_nat x) chain_mean 0) chain_Sigma (m_items c) (n_normal (m_normal c)))
    by exact (proj2 (Mc c (nth_error_In (cg_clusters cg') 0 Nc))).
  rewrite Hi in Mk. destruct Mk as (Mm & _ & Mv).
  exists cg, cg', c. split; [exact E1|]. split; [exact E2|]. split; [exact Nc|]. split; [exact Hi|].
  split; [exact Mm|].
  pose proof (Mv 0%nat 0%nat) as V00. pose proof (Mv 0%nat 1%nat) as V01. pose proof (Mv 1%nat 1%nat) as V11.
  cbn [length] in *. rewrite V00, V01, V11 by lia. unfold chain_Sigma. cbn. repeat split; lra.
Qed.

(** Once set, the normal approximations of the clusters are there to stay. *)
Theorem C54_second_call_ignored : forall (S : sig) (cg cg1 cg2 : cgraph S) mean1 Q1 mean2 Q2,
  cg_setNormalApprox cg mean1 Q1 = Ok cg1 -> cg_setNormalApprox cg1 mean2 Q2 = Ok cg2 ->
  map m_normal (cg_clusters cg2) = map m_normal (cg_clusters cg1).
Proof. exact C54_once. Qed.
Print Assumptions C54_second_call_ignored.

Example C54_second_case : exists cg cg1 cg2, build (S := chain_sig) chain = Ok cg /\
  cg_setNormalApprox cg chain_mean chain_Q = Ok cg1 /\ cg_setNormalApprox cg1 [0; 8; 9; 10] chain_Q = Ok cg2 /\
  length (cg_clusters cg2) = 2%nat.
Proof. exact chain_twice. Qed.
