(** What a caller can see of a cluster graph. *)
From Coq Require Import List ZArith Bool.
From Verif Require Import Model.Base Model.Mixed Model.ClusterGraph.
Import ListNotations.

Section T.
Context {S : sig}.

(** Items of the clusters and of the edges (separators), endpoints of edges. *)
Definition cl_items (cg : cgraph S) : list (list Z) := map m_items (cg_clusters cg).
Definition sep_items (cg : cgraph S) : list (list Z) :=
  map (fun e => m_items (e_belief e)) (cg_edges cg).
Definition sep_at (cg : cgraph S) (i : nat) : list Z := nth i (sep_items cg) [].
Definition parent (cg : cgraph S) (i : nat) : option nat :=
  option_map (fun e => Z.to_nat (e_second e)) (nth_error (cg_edges cg) i).

(** The cluster graph made from continuous factors, as src/ClusterGraph.cpp:23
    is called from R (each factor converted by MixedContinuousBelief(belief)). *)
Definition build (fs : list (B S)) : outcome (cgraph S) :=
  makeClusterGraph (map mixed_of_belief fs).

(** Sum of all entries of a matrix. *)
Definition sum_entries (m : list (list (D S))) : D S :=
  fold_right (dadd S) (dzero S) (map (fold_right (dadd S) (dzero S)) m).
End T.
