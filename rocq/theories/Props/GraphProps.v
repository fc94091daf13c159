(** C01-C04: the dependence graph (src/Graph.cpp, inst/include/dependenceGraph.h). *)
From Coq Require Import List ZArith Bool Lia Sorted.
From Verif Require Import Model.Base Model.Items Model.Graph Model.GraphOps
  Spec.GraphSpec Proofs.GraphMain.
Import ListNotations.
Local Open Scope Z_scope.

(** C01. [pre] ranges over all prefixes of an allowed history. *)
Theorem C01_graph_bookkeeping : forall items pre suf, NoDup items ->
  allowed_all items (a_start items) (pre ++ suf) ->
  let a := fold_left a_step pre (a_start items) in
  exists g, g_run (graph_of_items items) pre = Ok g /\
    getItems g = a_items a /\
    g_nv g = Z.of_nat (length (a_items a)) /\
    a_edge_count a (g_ne g) /\
    (forall i, In i items -> exists l,
       findNeighbours g i = Ok l /\ a_neighbours a i l /\
       findDegree g i = Ok (Z.of_nat (length l))) /\
    (forall i, ~ In i items ->
       findNeighbours g i = Throw OutOfRange /\ findDegree g i = Throw OutOfRange).
Proof. exact C01_main. Qed.
Print Assumptions C01_graph_bookkeeping.

(** A history that meets the discipline, with a removal in the middle. *)
Example C01_case : NoDup [4; 7; 1; 9] /\
  allowed_all [4; 7; 1; 9] (a_start [4; 7; 1; 9])
    [OpEdge 4 7; OpConnect [7; 1; 9]; OpRemove 7; OpEdge 4 9; OpRemove 7].
Proof.
  split.
  - repeat constructor; simpl; intuition discriminate.
  - simpl. repeat split; auto 10; try discriminate;
      try (repeat constructor; simpl; intuition discriminate);
      intros x; simpl; intuition.
Qed.
Example C01_case_value : exists g,
  g_run (graph_of_items [4; 7; 1; 9])
    [OpEdge 4 7; OpConnect [7; 1; 9]; OpRemove 7; OpEdge 4 9; OpRemove 7] = Ok g /\
  getItems g = [4; 1; 9] /\ g_ne g = 2 /\ findNeighbours g 9 = Ok [1; 4] /\
  findNeighbours g 7 = Ok [4; 1; 9].
Proof. eexists. split; [reflexivity|]. repeat split. Qed.

(** C02. *)
Theorem C02_isComplete_correct : forall items pre suf, NoDup items ->
  allowed_all items (a_start items) (pre ++ suf) ->
  exists g, g_run (graph_of_items items) pre = Ok g /\
    (isComplete g = true <-> a_complete (fold_left a_step pre (a_start items))).
Proof. exact C02_main. Qed.
Print Assumptions C02_isComplete_correct.

Example C02_case_both : exists g1 g2,
  g_run (graph_of_items [4; 7; 1; 9]) [OpEdge 4 7; OpConnect [7; 1; 9]; OpRemove 7] = Ok g1 /\
  isComplete g1 = false /\
  g_run g1 [OpEdge 4 9; OpEdge 1 4] = Ok g2 /\ isComplete g2 = true.
Proof. do 2 eexists. split; [reflexivity|]. split; [reflexivity|]. split; reflexivity. Qed.

(** C03, in general: bringing a removed item back under-counts the edges by the
    number of its remaining neighbours, so numEdges is right exactly when there
    is none. *)
Theorem C03_reactivation_undercounts : forall items ops i j,
  NoDup items -> allowed_all items (a_start items) ops ->
  let a := fold_left a_step ops (a_start items) in
  In i items -> ~ In i (a_items a) -> In j (a_items a) ->
  exists g nb n, g_run (graph_of_items items) (ops ++ [OpEdge i j]) = Ok g /\
    a_neighbours a i nb /\
    (forall x, In x (getItems g) <-> In x (a_items (a_revive a i j))) /\
    g_nv g = Z.of_nat (length (a_items (a_revive a i j))) /\
    a_edge_count (a_revive a i j) n /\
    g_ne g = n - Z.of_nat (length nb).
Proof. exact C03_main. Qed.
Print Assumptions C03_reactivation_undercounts.

(** C03, witness: 1-2-3 triangle, remove 1, add the edge 1-2 again. *)
Theorem C03_numEdges_refuted : exists g,
  g_run (graph_of_items [1; 2; 3]) [OpConnect [1; 2; 3]; OpRemove 1; OpEdge 1 2] = Ok g /\
  getItems g = [1; 2; 3] /\
  findNeighbours g 1 = Ok [2; 3] /\ findNeighbours g 2 = Ok [1; 3] /\
  findNeighbours g 3 = Ok [1; 2] /\
  g_ne g = 1 /\ isComplete g = false.
Proof. eexists. split; [reflexivity|]. repeat split. Qed.
Print Assumptions C03_numEdges_refuted.

Example C03_case :
  let items := [1; 2; 3] in let ops := [OpConnect [1; 2; 3]; OpRemove 1] in
  allowed_all items (a_start items) ops /\ In 1 items /\
  ~ In 1 (a_items (fold_left a_step ops (a_start items))) /\
  In 2 (a_items (fold_left a_step ops (a_start items))).
Proof.
  simpl. repeat split; auto.
  - repeat constructor; simpl; intuition discriminate.
  - intros x; auto.
  - intuition discriminate.
Qed.

(** C04. *)
Theorem C04_dependence_graph : forall scopes, (forall s, In s scopes -> NoDup s) ->
  exists g, makeDependenceGraph scopes = Ok g /\
    StronglySorted Z.lt (getItems g) /\
    (forall x, In x (getItems g) <-> exists s, In s scopes /\ In x s) /\
    (forall x, In x (getItems g) -> exists l, findNeighbours g x = Ok l /\ NoDup l /\
       forall y, In y l <-> x <> y /\ exists s, In s scopes /\ In x s /\ In y s).
Proof. exact C04_main. Qed.
Print Assumptions C04_dependence_graph.

Example C04_case : exists g,
  makeDependenceGraph [[5; 2]; []; [2; 8; 3]; [5; 2]] = Ok g /\
  getItems g = [2; 3; 5; 8] /\ findNeighbours g 2 = Ok [5; 8; 3] /\
  findNeighbours g 5 = Ok [2].
Proof. eexists. split; [reflexivity|]. repeat split. Qed.
