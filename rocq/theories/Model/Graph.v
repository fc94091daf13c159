(** src/Graph.cpp, inst/include/Graph.h, inst/include/dependenceGraph.h.

    The Boost adjacency_list<vecS, vecS, undirectedS> is modelled by a list of
    vertex properties and, per vertex, the list of its out-edge targets in
    insertion order.  [std::map positions_] is an association list in which the
    most recent binding of a key comes first.  Counters are unbounded integers
    here (Model/IntCounting.v has the 32-bit version of isComplete). *)
From Coq Require Import List ZArith Bool.
From Verif Require Import Model.Base Model.Items.
Import ListNotations.
Local Open Scope Z_scope.

(** vertexProperties, inst/include/Graph.h:8-12. *)
Record vertex := mkVertex { v_item : Z; v_active : bool }.

(** Private members of Graph, inst/include/Graph.h:34-56. *)
Record graph := mkGraph {
  g_verts : list vertex;
  g_adj : list (list nat);
  g_pos : list (Z * nat);
  g_nv : Z;
  g_ne : Z
}.

Definition emptyGraph : graph := mkGraph [] [] [] 0 0.

(** positions_.at(i). *)
Fixpoint pos_at (m : list (Z * nat)) (i : Z) : outcome nat :=
  match m with
  | [] => Throw OutOfRange
  | (k, v) :: m' => if k =? i then Ok v else pos_at m' i
  end.

(** Graph::addNode, src/Graph.cpp:12-19. *)
Definition addNode (g : graph) (item : Z) : graph :=
  let v := length (g_verts g) in
  mkGraph (g_verts g ++ [mkVertex item true]) (g_adj g ++ [[]])
          ((item, v) :: g_pos g) (g_nv g + 1) (g_ne g).

(** Graph::Graph(items), src/Graph.cpp:4-10. *)
Definition graph_of_items (items : list Z) : graph :=
  fold_left addNode items emptyGraph.

(** Body of the loops in findDegree, src/Graph.cpp:95-100. *)
Fixpoint count_active (g : graph) (ws : list nat) : outcome Z :=
  match ws with
  | [] => Ok 0
  | w :: ws' =>
      v <- vec_get (g_verts g) w ;;
      n <- count_active g ws' ;;
      Ok (if v_active v then 1 + n else n)
  end.

(** Graph::findDegree, src/Graph.cpp:89-102. *)
Definition findDegree (g : graph) (i : Z) : outcome Z :=
  ri <- pos_at (g_pos g) i ;;
  ws <- vec_get (g_adj g) ri ;;
  count_active g ws.

(** Body of the loop in findNeighbours, src/Graph.cpp:110-115. *)
Fixpoint collect_active (g : graph) (ws : list nat) : outcome (list Z) :=
  match ws with
  | [] => Ok []
  | w :: ws' =>
      v <- vec_get (g_verts g) w ;;
      l <- collect_active g ws' ;;
      Ok (if v_active v then v_item v :: l else l)
  end.

(** Graph::findNeighbours, src/Graph.cpp:104-118. *)
Definition findNeighbours (g : graph) (i : Z) : outcome (list Z) :=
  ri <- pos_at (g_pos g) i ;;
  ws <- vec_get (g_adj g) ri ;;
  collect_active g ws.

(** Graph::removeNode, src/Graph.cpp:21-30. *)
Definition removeNode (g : graph) (i : Z) : outcome graph :=
  ri <- pos_at (g_pos g) i ;;
  v <- vec_get (g_verts g) ri ;;
  if v_active v then
    di <- findDegree g i ;;
    Ok (mkGraph (upd (g_verts g) ri (mkVertex (v_item v) false)) (g_adj g)
                (g_pos g) (g_nv g - 1) (g_ne g - di))
  else Ok g.

(** The re-activation step of addEdge, src/Graph.cpp:38-45. *)
Definition activate (g : graph) (r : nat) : outcome graph :=
  v <- vec_get (g_verts g) r ;;
  if v_active v then Ok g
  else Ok (mkGraph (upd (g_verts g) r (mkVertex (v_item v) true)) (g_adj g)
                   (g_pos g) (g_nv g + 1) (g_ne g)).

(** boost::add_edge on an undirected vecS graph: the target is appended to the
    out-edge list of the source and vice versa (twice to the same list for a
    self loop). *)
Definition boost_add_edge (adj : list (list nat)) (u v : nat) : outcome (list (list nat)) :=
  lu <- vec_get adj u ;;
  let adj1 := upd adj u (lu ++ [v]) in
  lv <- vec_get adj1 v ;;
  Ok (upd adj1 v (lv ++ [u])).

(** Graph::addEdge, src/Graph.cpp:32-52.  boost::edge(u, v, g) searches the
    out-edge list of u for target v. *)
Definition addEdge (g : graph) (i j : Z) : outcome graph :=
  ri <- pos_at (g_pos g) i ;;
  rj <- pos_at (g_pos g) j ;;
  g1 <- activate g ri ;;
  g2 <- activate g1 rj ;;
  lu <- vec_get (g_adj g2) ri ;;
  if existsb (Nat.eqb rj) lu then Ok g2
  else
    adj <- boost_add_edge (g_adj g2) ri rj ;;
    Ok (mkGraph (g_verts g2) adj (g_pos g2) (g_nv g2) (g_ne g2 + 1)).

(** Graph::connect, src/Graph.cpp:55-63. *)
Fixpoint connect (g : graph) (items : list Z) : outcome graph :=
  match items with
  | [] => Ok g
  | i :: items' =>
      g' <- foldM (fun h j => addEdge h i j) items' g ;;
      connect g' items'
  end.

(** Graph::getItems, src/Graph.cpp:75-87. *)
Definition getItems (g : graph) : list Z :=
  map v_item (filter v_active (g_verts g)).

(** isComplete, src/Graph.cpp:120-124.  C++ integer division truncates. *)
Definition isComplete (g : graph) : bool :=
  g_ne g =? Z.quot (g_nv g * (g_nv g - 1)) 2.

(** makeDependenceGraph, inst/include/dependenceGraph.h:13-27, on the scopes
    (getItems) of the beliefs. *)
Definition makeDependenceGraph (scopes : list (list Z)) : outcome graph :=
  let items := fold_left findItemsUnion scopes [] in
  foldM connect scopes (graph_of_items items).
