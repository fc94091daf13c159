(** Abstract greedy elimination on a simple graph, and junction-tree notions.
    Nothing here refers to the model. *)
From Coq Require Import List ZArith Bool Sorted.
From Verif Require Import Spec.GraphSpec.
Import ListNotations.
Local Open Scope Z_scope.

(** [n] is the number of remaining items adjacent to [x]. *)
Definition a_degree (a : agraph) (x : Z) (n : nat) : Prop :=
  exists l, a_neighbours a x l /\ length l = n.

(** [e] is the first of the remaining items that has the fewest neighbours. *)
Definition first_min (a : agraph) (e : Z) : Prop :=
  exists l1 l2 n, a_items a = l1 ++ e :: l2 /\ a_degree a e n /\
    (forall x m, In x l1 -> a_degree a x m -> (n < m)%nat) /\
    (forall x m, In x l2 -> a_degree a x m -> (n <= m)%nat).

(** [elim a es cs ss]: starting from [a], the items [es] are eliminated in this
    order, giving clusters [cs] (increasing lists) and separators [ss]; the last
    cluster is what remains when the graph has become complete. *)
Inductive elim : agraph -> list Z -> list (list Z) -> list (list Z) -> Prop :=
| elim_done a : a_complete a -> elim a [] [a_items a] []
| elim_step a e sep cl es cs ss :
    ~ a_complete a ->
    first_min a e ->
    a_neighbours a e sep ->
    StronglySorted Z.lt cl ->
    (forall x, In x cl <-> x = e \/ In x sep) ->
    elim (a_remove (a_connect a sep) e) es cs ss ->
    elim a (e :: es) (cl :: cs) (sep :: ss).

(** The dependence graph of a list of scopes. *)
Definition scopes_graph (scopes : list (list Z)) (items : list Z) : agraph :=
  mkA items (fun x y => x <> y /\ exists s, In s scopes /\ In x s /\ In y s).

(** [k] is the first position after [i] whose cluster contains [sep]. *)
Definition first_containing (cs : list (list Z)) (i : nat) (sep : list Z) (k : nat) : Prop :=
  (i < k)%nat /\
  (exists c, nth_error cs k = Some c /\ incl sep c) /\
  (forall k' c, (i < k' < k)%nat -> nth_error cs k' = Some c -> ~ incl sep c).

(** Following edges [k -> parent k] whose separator contains [set]. *)
Inductive up_path (parent : nat -> option nat) (sep : nat -> list Z) (set : list Z)
  : nat -> nat -> Prop :=
| up_refl k : up_path parent sep set k k
| up_step i j k : parent i = Some j -> incl set (sep i) ->
    up_path parent sep set j k -> up_path parent sep set i k.

(** Decidable inclusion, for counting. *)
Definition inclb (s c : list Z) : bool := forallb (fun x => existsb (Z.eqb x) c) s.
Definition count_containing (s : list Z) (cs : list (list Z)) : nat :=
  length (filter (inclb s) cs).
