(** Abstract simple graphs: the list of remaining items and an adjacency
    relation.  Independent of the representation in Model/Graph.v. *)
From Coq Require Import List ZArith Bool.
Import ListNotations.
Local Open Scope Z_scope.

Record agraph := mkA { a_items : list Z; a_adj : Z -> Z -> Prop }.

(** Operations a client can apply to a graph. *)
Inductive gop : Type :=
| OpEdge (i j : Z)
| OpConnect (l : list Z)
| OpRemove (i : Z).

Definition a_start (items : list Z) : agraph := mkA items (fun _ _ => False).

Definition a_edge (a : agraph) (i j : Z) : agraph :=
  mkA (a_items a)
      (fun x y => a_adj a x y \/ (x = i /\ y = j) \/ (x = j /\ y = i)).

Definition a_connect (a : agraph) (l : list Z) : agraph :=
  mkA (a_items a)
      (fun x y => a_adj a x y \/ (x <> y /\ In x l /\ In y l)).

Definition a_remove (a : agraph) (i : Z) : agraph :=
  mkA (filter (fun x => negb (x =? i)) (a_items a)) (a_adj a).

Definition a_step (a : agraph) (op : gop) : agraph :=
  match op with
  | OpEdge i j => a_edge a i j
  | OpConnect l => a_connect a l
  | OpRemove i => a_remove a i
  end.

(** The discipline: edges join distinct remaining items; removal names an item
    the graph was built with. *)
Definition allowed (items0 : list Z) (a : agraph) (op : gop) : Prop :=
  match op with
  | OpEdge i j => i <> j /\ In i (a_items a) /\ In j (a_items a)
  | OpConnect l => NoDup l /\ incl l (a_items a)
  | OpRemove i => In i items0
  end.

Fixpoint allowed_all (items0 : list Z) (a : agraph) (ops : list gop) : Prop :=
  match ops with
  | [] => True
  | op :: ops' => allowed items0 a op /\ allowed_all items0 (a_step a op) ops'
  end.

(** Every two distinct remaining items are adjacent. *)
Definition a_complete (a : agraph) : Prop :=
  forall x y, In x (a_items a) -> In y (a_items a) -> x <> y -> a_adj a x y.

(** [n] is the number of unordered adjacent pairs of remaining items. *)
Definition a_edge_count (a : agraph) (n : Z) : Prop :=
  exists P : list (Z * Z),
    NoDup P /\
    (forall x y, In (x, y) P <->
       x < y /\ In x (a_items a) /\ In y (a_items a) /\ a_adj a x y) /\
    n = Z.of_nat (length P).

(** [l] lists, without repetition, the remaining items adjacent to [i]. *)
Definition a_neighbours (a : agraph) (i : Z) (l : list Z) : Prop :=
  NoDup l /\ forall x, In x l <-> In x (a_items a) /\ a_adj a i x.

(** Bringing a removed item back and joining it to a remaining one (C03). *)
Definition a_revive (a : agraph) (i j : Z) : agraph :=
  a_edge (mkA (i :: a_items a) (a_adj a)) i j.
