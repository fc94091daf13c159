(** Junction trees given as lists of bags, for comparing widths (C59). *)
From Coq Require Import List ZArith.
Import ListNotations.

(** A list of bags with the running intersection property: what a bag shares
    with the later bags lies inside one later bag (its parent in the tree). *)
Inductive junction_tree : list (list Z) -> Prop :=
| jt_last b : junction_tree [b]
| jt_cons b bs p :
    junction_tree bs -> In p bs ->
    (forall x c, In x b -> In c bs -> In x c -> In x p) ->
    junction_tree (b :: bs).

(** Every scope lies inside a bag. *)
Definition covers (bags scopes : list (list Z)) : Prop :=
  forall s, In s scopes -> exists b, In b bags /\ incl s b.

(** No bag has more than [w] items. *)
Definition bags_within (bags : list (list Z)) (w : nat) : Prop :=
  forall b, In b bags -> (length b <= w)%nat.
