(** src/itemsHelper.cpp and inst/include/itemsHelper.h: operations on item
    lists.  An item is a C++ [int], here [Z]. *)
From Coq Require Import List ZArith Bool.
From Verif Require Import Model.Base.
Import ListNotations.
Local Open Scope Z_scope.

(** std::sort on ints (used at inst/include/itemsHelper.h:24-25 and
    src/itemsHelper.cpp:42-43).  The sorted rearrangement of a list of ints is
    unique, so the choice of insertion sort is not a simplification. *)
Fixpoint insert (x : Z) (l : list Z) : list Z :=
  match l with
  | [] => [x]
  | y :: l' => if x <=? y then x :: l else y :: insert x l'
  end.
Fixpoint sort (l : list Z) : list Z :=
  match l with [] => [] | x :: l' => insert x (sort l') end.

(** std::includes(B, A) on sorted ranges, the algorithm of the standard
    (inst/include/itemsHelper.h:26). *)
Fixpoint includes (b a : list Z) {struct b} : bool :=
  match a with
  | [] => true
  | x :: a' =>
      match b with
      | [] => false
      | y :: b' =>
          if x <? y then false
          else if y <? x then includes b' a
          else includes b' a'
      end
  end.

(** isSubset(A, B), inst/include/itemsHelper.h:21-27. *)
Definition isSubset (a b : list Z) : bool := includes (sort b) (sort a).

(** std::find(...) - begin(), the position of the first occurrence. *)
Fixpoint find_pos (item : Z) (items : list Z) : option nat :=
  match items with
  | [] => None
  | y :: l => if y =? item then Some O
              else option_map S (find_pos item l)
  end.

(** findRelativeItem, src/itemsHelper.cpp:5-13.  The [else] branch builds a
    std::domain_error but does not throw it, so control falls to [return 0]. *)
Definition findRelativeItem (item : Z) (items : list Z) : nat :=
  match find_pos item items with
  | Some k => k
  | None => O
  end.

(** findRelativeItems, src/itemsHelper.cpp:15-23. *)
Definition findRelativeItems (subset items : list Z) : list nat :=
  map (fun i => findRelativeItem i items) subset.

(** findItemsDifference, src/itemsHelper.cpp:25-34. *)
Definition findItemsDifference (items subset : list Z) : list Z :=
  filter (fun i => match find_pos i subset with None => true | Some _ => false end)
         items.

(** std::set_union on sorted ranges. *)
Fixpoint set_union (l1 : list Z) : list Z -> list Z :=
  fix aux (l2 : list Z) : list Z :=
    match l1 with
    | [] => l2
    | x :: l1' =>
        match l2 with
        | [] => l1
        | y :: l2' =>
            if x <? y then x :: set_union l1' l2
            else if y <? x then y :: aux l2'
            else x :: set_union l1' l2'
        end
    end.

(** findItemsUnion, src/itemsHelper.cpp:36-49. *)
Definition findItemsUnion (items1 items2 : list Z) : list Z :=
  set_union (sort items1) (sort items2).
