(** C05-C09: construction of the cluster graph (src/ClusterGraph.cpp). *)
From Coq Require Import List ZArith Bool Lia Sorted Permutation.
From Verif Require Import Model.Base Model.Items Model.Graph Model.Mixed Model.ClusterGraph
  Spec.GraphSpec Spec.ElimSpec Spec.BeliefSpec Spec.TreeSpec Spec.Toy Proofs.ClusterMain.
Import ListNotations.

(** C05. *)
Theorem C05_rooted_tree : forall (S : sig) (fs : list (B S)),
  (forall f, In f fs -> NoDup (bscope S f)) ->
  exists cg, build fs = Ok cg /\
    (0 < nClusters cg)%nat /\ (nEdges cg = nClusters cg - 1)%nat /\
    (forall k e, nth_error (cg_edges cg) k = Some e ->
       e_first e = Z.of_nat k /\ (Z.of_nat k < e_second e < Z.of_nat (nClusters cg))%Z) /\
    (forall k, (k < nClusters cg)%nat ->
       up_path (parent cg) (sep_at cg) [] k (nClusters cg - 1)) /\
    (forall j k e, nth_error (cg_edges cg) j = Some e -> e_second e = Z.of_nat k -> (j < k)%nat).
Proof. exact C05_main. Qed.
Print Assumptions C05_rooted_tree.

Example cycle_scopes : forall f, In f cycle -> NoDup (bscope toy f).
Proof.
  intros f Hf. simpl in Hf.
  repeat destruct Hf as [<-|Hf]; simpl; repeat constructor; simpl; try tauto; intuition discriminate.
Qed.

(** The cluster graph of the four-cycle with a pendant. *)
Example C05_case : on_ok (build cycle) (fun cg =>
  cl_items cg = [[4; 9]; [1; 2; 4]; [2; 3; 4]]%Z /\
  sep_items cg = [[4]; [2; 4]]%Z /\
  map (fun e => (e_first e, e_second e)) (cg_edges cg) = [(0, 1); (1, 2)]%Z).
Proof. vm_compute. repeat split. Qed.

(** C06. *)
Theorem C06_factors_distributed : forall (S : sig) (fs : list (B S)),
  (forall f, In f fs -> NoDup (bscope S f)) ->
  exists cg, build fs = Ok cg /\
    Permutation (concat (map m_beliefs (cg_clusters cg))) fs /\
    (forall c f, In c (cg_clusters cg) -> In f (m_beliefs c) -> incl (bscope S f) (m_items c)) /\
    (forall c, In c (cg_clusters cg) ->
       length (m_inv c) = length (m_beliefs c) /\ forall v, In v (m_inv c) -> v = false).
Proof. exact C06_main. Qed.
Print Assumptions C06_factors_distributed.

Example C06_case : on_ok (build cycle) (fun cg =>
  map (fun c => map (bscope toy) (m_beliefs c)) (cg_clusters cg) =
    [[[9; 4]; []]; [[1; 2]; [4; 1]; [1; 2]]; [[3; 2]; [3; 4]]]%Z).
Proof. vm_compute. reflexivity. Qed.

(** C07. *)
Theorem C07_running_intersection : forall (S : sig) (fs : list (B S)),
  (forall f, In f fs -> NoDup (bscope S f)) ->
  exists cg, build fs = Ok cg /\
    (* separators are inside both ends *)
    (forall k sep, nth_error (sep_items cg) k = Some sep ->
       exists p c c', parent cg k = Some p /\ nth_error (cl_items cg) k = Some c /\
         nth_error (cl_items cg) p = Some c' /\ incl sep c /\ incl sep c') /\
    (* and are what the source cluster shares with later clusters *)
    (forall k sep c, nth_error (sep_items cg) k = Some sep -> nth_error (cl_items cg) k = Some c ->
       forall x, In x sep <-> In x c /\ exists j cj, (k < j)%nat /\
                   nth_error (cl_items cg) j = Some cj /\ In x cj) /\
    (* running intersection, for sets of items *)
    (forall set i ci, nth_error (cl_items cg) i = Some ci -> incl set ci ->
       exists r, forall j cj, nth_error (cl_items cg) j = Some cj -> incl set cj ->
         up_path (parent cg) (sep_at cg) set j r).
Proof. exact C07_main. Qed.
Print Assumptions C07_running_intersection.

Example C07_case : on_ok (build cycle) (fun cg =>
  parent cg 0 = Some 1 /\ parent cg 1 = Some 2 /\ sep_at cg 0 = [4%Z] /\ sep_at cg 1 = [2; 4]%Z).
Proof. vm_compute. repeat split. Qed.

(** C08: over-counting by one, and its matrix form for arbitrary entries [T]
    (taking T i j = d_i * Q_ij * d_j gives the quadratic forms of the normal
    approximations handed to clusters and separators by setNormalApprox). *)
Theorem C08_counting : forall (S : sig) (fs : list (B S)),
  (forall f, In f fs -> NoDup (bscope S f)) ->
  exists cg, build fs = Ok cg /\
    forall set, (exists c, In c (cl_items cg) /\ incl set c) ->
      count_containing set (cl_items cg) = (count_containing set (sep_items cg) + 1)%nat.
Proof. exact C08_count. Qed.
Print Assumptions C08_counting.

Theorem C08_submatrices_add_up : forall (S : sig) (fs : list (B S)),
  (forall f, In f fs -> NoDup (bscope S f)) -> group_laws S ->
  exists cg items, build fs = Ok cg /\
    StronglySorted Z.lt items /\ (forall x, In x items <-> exists f, In f fs /\ In x (bscope S f)) /\
    forall T, (forall x y, In x items -> In y items ->
                (forall c, In c (cl_items cg) -> ~ (In x c /\ In y c)) -> T x y = dzero S) ->
      dsumS S (map (fun c => sum_entries (getSparseMatrixSubset S T c)) (cl_items cg)) =
      dadd S (sum_entries (getSparseMatrixSubset S T items))
             (dsumS S (map (fun s => sum_entries (getSparseMatrixSubset S T s)) (sep_items cg))).
Proof. exact C08_matrix. Qed.
Print Assumptions C08_submatrices_add_up.

Example C08_case : on_ok (build cycle) (fun cg =>
  count_containing [4%Z] (cl_items cg) = 3 /\ count_containing [4%Z] (sep_items cg) = 2 /\
  count_containing [2; 4]%Z (cl_items cg) = 2).
Proof. vm_compute. repeat split. Qed.

(** C09. *)
Theorem C09_greedy_elimination : forall (S : sig) (fs : list (B S)),
  (forall f, In f fs -> NoDup (bscope S f)) ->
  exists cg items es, build fs = Ok cg /\
    StronglySorted Z.lt items /\ (forall x, In x items <-> exists f, In f fs /\ In x (bscope S f)) /\
    elim (scopes_graph (map (bscope S) fs) items) es (cl_items cg) (sep_items cg) /\
    (forall c, In c (cl_items cg) -> (Z.of_nat (length c) <= width cg)%Z) /\
    (exists c, In c (cl_items cg) /\ width cg = Z.of_nat (length c)) /\
    (forall f, In f fs -> (Z.of_nat (length (bscope S f)) <= width cg)%Z) /\
    (width cg <= Z.of_nat (length items))%Z.
Proof. exact C09_main. Qed.
Print Assumptions C09_greedy_elimination.

Example C09_case : on_ok (build cycle) (fun cg => width cg = 3%Z).
Proof. vm_compute. reflexivity. Qed.
