(** src/ClusterGraph.cpp, inst/include/ClusterGraph.h. *)
From Coq Require Import List ZArith Bool.
From Verif Require Import Model.Base Model.Items Model.Graph Model.Mixed.
Import ListNotations.

Section ClusterGraph.
Variable S : sig.

(** ClusterGraphEdge, inst/include/ClusterGraph.h:76-87. *)
Record edge := mkEdge { e_first : Z; e_second : Z; e_belief : mixed S }.

(** ClusterGraph, inst/include/ClusterGraph.h:56-61.  The parameters are part of
    the signature (see Model/Mixed.v). *)
Record cgraph := mkCG {
  cg_clusters : list (mixed S);
  cg_edges : list edge;
  cg_calibrated : bool
}.

(** ClusterGraph(), src/ClusterGraph.cpp:19-21. *)
Definition emptyCG : cgraph := mkCG [] [] false.

(** clusters_.at(i) for an int i: a negative value converts to a huge
    unsigned index and throws. *)
Definition zat {A} (l : list A) (i : Z) : outcome A :=
  if (i <? 0)%Z then Throw OutOfRange else vec_at l (Z.to_nat i).

(** edges_.at(edgeId).secondClusterId_ = c, src/ClusterGraph.cpp:222 and 258. *)
Definition set_second (es : list edge) (id : nat) (c : nat) : outcome (list edge) :=
  e <- vec_at es id ;;
  Ok (upd es id (mkEdge (e_first e) (Z.of_nat c) (e_belief e))).

(** The choice of the item to eliminate, src/ClusterGraph.cpp:232-243. *)
Definition choose_step (g : graph) (best : Z * Z) (candidate : Z) : outcome (Z * Z) :=
  let '(itemToEliminate, minSeparatorSize) := best in
  sep <- findNeighbours g candidate ;;
  let separatorSize := Z.of_nat (length sep) in
  Ok (if (separatorSize <? minSeparatorSize)%Z then (candidate, separatorSize)
      else (itemToEliminate, minSeparatorSize)).

Definition choose_item (g : graph) : outcome Z :=
  let remainingItems := getItems g in
  first <- vec_at remainingItems 0 ;;
  best <- foldM (choose_step g) remainingItems
                (first, Z.of_nat (length remainingItems)) ;;
  Ok (fst best).

(** One step of the loop over the hanging edges, src/ClusterGraph.cpp:256-262. *)
Definition hang_step (cluster : list Z) (newClusterId : nat)
           (st : list edge * list nat) (edgeId : nat) : outcome (list edge * list nat) :=
  let '(es, newHanging) := st in
  e <- vec_at es edgeId ;;
  if isSubset (m_items (e_belief e)) cluster then
    es' <- set_second es edgeId newClusterId ;; Ok (es', newHanging)
  else Ok (es, newHanging ++ [edgeId]).

(** initializeInternal, src/ClusterGraph.cpp:217-270.  The recursion is fuelled;
    [NoFuel] is shown unreachable. *)
Fixpoint initializeInternal (fuel : nat) (cg : cgraph) (g : graph) (hanging : list nat)
  : outcome cgraph :=
  match fuel with
  | O => NoFuel
  | Datatypes.S fuel' =>
      if isComplete g then
        es <- foldM (fun es id => set_second es id (length (cg_clusters cg)))
                    hanging (cg_edges cg) ;;
        Ok (mkCG (cg_clusters cg ++ [mixed_of_items (getItems g)]) es (cg_calibrated cg))
      else
        itemToEliminate <- choose_item g ;;
        separator <- findNeighbours g itemToEliminate ;;
        let cluster := findItemsUnion [itemToEliminate] separator in
        let newClusterId := length (cg_clusters cg) in
        let clusters := cg_clusters cg ++ [mixed_of_items cluster] in
        let newEdgeId := length (cg_edges cg) in
        let edges := cg_edges cg ++
                     [mkEdge (Z.of_nat newClusterId) (-1) (mixed_of_items separator)] in
        st <- foldM (hang_step cluster newClusterId) hanging (edges, []) ;;
        let '(es, newHanging) := st in
        g1 <- connect g separator ;;
        g2 <- removeNode g1 itemToEliminate ;;
        initializeInternal fuel' (mkCG clusters es (cg_calibrated cg)) g2
                           (newHanging ++ [newEdgeId])
  end.

(** initialize, src/ClusterGraph.cpp:32-37 (works on a copy of the graph). *)
Definition initialize (cg : cgraph) (g : graph) : outcome cgraph :=
  initializeInternal (Datatypes.S (length (g_verts g))) cg g [].

(** isSubset(belief, cluster), src/BeliefBase.cpp:25-34. *)
Definition contained (cluster : mixed S) (belief : mixed S) : bool :=
  isSubset (m_items belief) (m_items cluster).

(** populateBelief, src/ClusterGraph.cpp:301-325: returns the new cluster and
    the beliefs that are left. *)
Definition populateBelief (cluster : mixed S) (multiply : bool) (beliefs : list (mixed S))
  : mixed S * list (mixed S) :=
  let containedBeliefs := filter (contained cluster) beliefs in
  let rest := filter (fun b => negb (contained cluster b)) beliefs in
  (fold_left (fun c b => if multiply then mixed_mul c b else mixed_div c b)
             containedBeliefs cluster, rest).

(** populateClusters / populateInternal, src/ClusterGraph.cpp:273-288. *)
Fixpoint populateClusters (clusters : list (mixed S)) (multiply : bool)
         (beliefs : list (mixed S)) : list (mixed S) * list (mixed S) :=
  match clusters with
  | [] => ([], beliefs)
  | c :: cs =>
      let '(c', rest) := populateBelief c multiply beliefs in
      let '(cs', rest') := populateClusters cs multiply rest in
      (c' :: cs', rest')
  end.

(** populate, src/ClusterGraph.cpp:40-45 (works on a copy of the beliefs; what is
    left over at the end is discarded). *)
Definition populate (cg : cgraph) (beliefs : list (mixed S)) : cgraph :=
  mkCG (fst (populateClusters (cg_clusters cg) true beliefs)) (cg_edges cg) false.

(** ClusterGraph(beliefs), src/ClusterGraph.cpp:23-29. *)
Definition makeClusterGraph (beliefs : list (mixed S)) : outcome cgraph :=
  g <- makeDependenceGraph (map m_items beliefs) ;;
  cg <- initialize emptyCG g ;;
  Ok (populate cg beliefs).

(** projectClusterOntoEdge, src/ClusterGraph.cpp:291-298. *)
Definition projectClusterOntoEdge (cluster : mixed S) (e : edge) (normalApproxOnly : bool)
  : outcome edge :=
  b <- margin cluster (m_items (e_belief e)) normalApproxOnly ;;
  Ok (mkEdge (e_first e) (e_second e) b).

(** passMessage, src/ClusterGraph.cpp:134-157, on the edge with index k. *)
Definition passMessage (cg : cgraph) (k : nat) (forward normalApproxOnly : bool)
  : outcome cgraph :=
  e <- vec_get (cg_edges cg) k ;;
  let i := if forward then e_first e else e_second e in
  let j := if forward then e_second e else e_first e in
  let oldEdgeBelief := e_belief e in
  ci <- zat (cg_clusters cg) i ;;
  e' <- projectClusterOntoEdge ci e normalApproxOnly ;;
  cj <- zat (cg_clusters cg) j ;;
  let cj' := mixed_div (mixed_mul cj (e_belief e')) oldEdgeBelief in
  proper <- isProper cj' ;;
  if proper : bool then
    Ok (mkCG (upd (cg_clusters cg) (Z.to_nat j) cj') (upd (cg_edges cg) k e')
             (cg_calibrated cg))
  else Throw RuntimeError.

(** calibrateInternal, src/ClusterGraph.cpp:122-131. *)
Definition calibrateInternal (cg : cgraph) (forward normalApproxOnly : bool)
  : outcome cgraph :=
  let ids := seq 0 (length (cg_edges cg)) in
  foldM (fun c k => passMessage c k forward normalApproxOnly)
        (if forward then ids else rev ids) cg.

(** calibrateForward / calibrateBackward / calibrate, src/ClusterGraph.cpp:105-120. *)
Definition calibrateForward (cg : cgraph) := calibrateInternal cg true false.
Definition calibrateBackward (cg : cgraph) := calibrateInternal cg false false.
Definition calibrate (cg : cgraph) : outcome cgraph :=
  cg1 <- calibrateForward cg ;;
  cg2 <- calibrateBackward cg1 ;;
  Ok (mkCG (cg_clusters cg2) (cg_edges cg2) true).

(** getVectorSubset, src/subsetEigen.cpp:40-47; items are the indices. *)
Definition getVectorSubset (v : list (D S)) (subset : list Z) : outcome (list (D S)) :=
  mapM (fun i => if (i <? 0)%Z then UB else vec_get v (Z.to_nat i)) subset.

(** getSparseMatrixSubset, src/subsetEigen.cpp:76-84; coeff(i, j) of the sparse
    precision is a function here. *)
Definition getSparseMatrixSubset (coeff : Z -> Z -> D S) (subset : list Z)
  : list (list (D S)) :=
  map (fun i => map (fun j => coeff i j) subset) subset.

(** setNormalApprox, src/ClusterGraph.cpp:47-72. *)
Definition cg_setNormalApprox (cg : cgraph) (mean : list (D S)) (precision : Z -> Z -> D S)
  : outcome cgraph :=
  clusters <- mapM (fun c =>
                mu <- getVectorSubset mean (m_items c) ;;
                Ok (setNormalApprox c mu (getSparseMatrixSubset precision (m_items c))))
              (cg_clusters cg) ;;
  edges <- mapM (fun e =>
                mu <- getVectorSubset mean (m_items (e_belief e)) ;;
                Ok (mkEdge (e_first e) (e_second e)
                     (setNormalApprox (e_belief e) mu
                        (getSparseMatrixSubset precision (m_items (e_belief e))))))
              (cg_edges cg) ;;
  cg1 <- calibrateInternal (mkCG clusters edges (cg_calibrated cg)) true true ;;
  cg2 <- calibrateInternal cg1 false true ;;
  Ok (mkCG (map fixNormalApprox (cg_clusters cg2))
           (map (fun e => mkEdge (e_first e) (e_second e) (fixNormalApprox (e_belief e)))
                (cg_edges cg2))
           (cg_calibrated cg2)).

(** ClusterGraph::margin, src/ClusterGraph.cpp:79-97.  Returns the marginal and
    the (now calibrated) cluster graph. *)
Fixpoint margin_loop (clusters : list (mixed S)) (items : list Z) (default : mixed S)
         (clusterId nClusters : nat) : outcome (mixed S) :=
  match clusters with
  | [] => Ok default
  | c :: cs =>
      if isSubset items (m_items c) then margin c items false
      else
        let clusterId' := Datatypes.S clusterId in
        if (clusterId' =? nClusters)%nat then Throw DomainError
        else margin_loop cs items default clusterId' nClusters
  end.
Definition cg_margin (cg : cgraph) (items : list Z) : outcome (mixed S * cgraph) :=
  cg' <- (if cg_calibrated cg then Ok cg else calibrate cg) ;;
  m <- margin_loop (cg_clusters cg') items (mixed_of_items items) 0
                   (length (cg_clusters cg')) ;;
  Ok (m, cg').

(** ClusterGraph::computeLogNormalizingConstant, src/ClusterGraph.cpp:99-103. *)
Definition cg_logNormalizingConstant (cg : cgraph) : outcome (D S) :=
  finalBelief <- zat (cg_clusters cg) (Z.of_nat (length (cg_clusters cg)) - 1) ;;
  mixed_logNormalizingConstant finalBelief.

(** extractBeliefs, src/ClusterGraph.cpp:208-215. *)
Definition extractBeliefs (cg : cgraph) : outcome (list (mixed S)) :=
  foldM (fun beliefs e =>
           b <- zat beliefs (e_second e) ;;
           Ok (upd beliefs (Z.to_nat (e_second e)) (mixed_div b (e_belief e))))
        (cg_edges cg) (cg_clusters cg).

(** width, src/ClusterGraph.cpp:182-188 (BeliefBase::width is the
    number of items, src/BeliefBase.cpp:19-22). *)
Definition width (cg : cgraph) : Z :=
  fold_left (fun w c => Z.max w (Z.of_nat (length (m_items c)))) (cg_clusters cg) 0%Z.

Definition nClusters (cg : cgraph) : nat := length (cg_clusters cg).
Definition nEdges (cg : cgraph) : nat := length (cg_edges cg).

(** free function computeLogNormalizingConstant, src/ClusterGraph.cpp:327-338
    (works on a copy of the graph). *)
Definition computeLogNormalizingConstant (cg : cgraph) (mean : list (D S))
           (precision : Z -> Z -> D S) : outcome (D S) :=
  cg1 <- cg_setNormalApprox cg mean precision ;;
  cg2 <- calibrateForward cg1 ;;
  cg_logNormalizingConstant cg2.

End ClusterGraph.

Arguments mkEdge {S}. Arguments e_first {S}. Arguments e_second {S}. Arguments e_belief {S}.
Arguments mkCG {S}. Arguments cg_clusters {S}. Arguments cg_edges {S}. Arguments cg_calibrated {S}.
Arguments emptyCG {S}. Arguments set_second {S}. Arguments hang_step {S}.
Arguments initializeInternal {S}. Arguments initialize {S}. Arguments contained {S}.
Arguments populateBelief {S}. Arguments populateClusters {S}. Arguments populate {S}.
Arguments makeClusterGraph {S}. Arguments projectClusterOntoEdge {S}. Arguments passMessage {S}.
Arguments calibrateInternal {S}. Arguments calibrateForward {S}. Arguments calibrateBackward {S}.
Arguments calibrate {S}. Arguments cg_setNormalApprox {S}. Arguments margin_loop {S}.
Arguments cg_margin {S}. Arguments cg_logNormalizingConstant {S}. Arguments extractBeliefs {S}.
Arguments width {S}. Arguments nClusters {S}. Arguments nEdges {S}.
Arguments computeLogNormalizingConstant {S}.
