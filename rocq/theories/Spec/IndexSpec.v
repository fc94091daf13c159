(** The rows of expand.grid, and index tuples. *)
From Coq Require Import List ZArith.
Import ListNotations.
Local Open Scope Z_scope.

(** 1, ..., n. *)
Definition upto (n : Z) : list Z := map Z.of_nat (seq 1 (Z.to_nat n)).

(** All the tuples with components from 1 to the given bounds, the first component
    varying fastest: the rows of expand.grid(1:l_1, 1:l_2, ...). *)
Fixpoint grid (l : list Z) : list (list Z) :=
  match l with
  | [] => [[]]
  | n :: l' => concat (map (fun t => map (fun i => i :: t) (upto n)) (grid l'))
  end.

(** A tuple within the bounds. *)
Definition within (l t : list Z) : Prop := Forall2 (fun n i => 1 <= i <= n) l t.

Definition product (l : list Z) : Z := fold_right Z.mul 1 l.
