(** Histories of public operations on a Graph (used to state C01-C03). *)
From Coq Require Import List ZArith Bool.
From Verif Require Import Model.Base Model.Items Model.Graph Spec.GraphSpec.
Import ListNotations.

(** Dispatch of one client operation to the member functions of
    src/Graph.cpp:21-63. *)
Definition g_step (g : graph) (op : gop) : outcome graph :=
  match op with
  | OpEdge i j => addEdge g i j
  | OpConnect l => connect g l
  | OpRemove i => removeNode g i
  end.

Definition g_run (g : graph) (ops : list gop) : outcome graph := foldM g_step ops g.
