(** R/indexing.R: one index for several. *)
From Coq Require Import List ZArith Lia.
Import ListNotations.
Local Open Scope Z_scope.

(** cumprod(l). *)
Fixpoint cumprod_from (acc : Z) (l : list Z) : list Z :=
  match l with
  | [] => []
  | x :: l' => acc * x :: cumprod_from (acc * x) l'
  end.
Definition cumprod (l : list Z) : list Z := cumprod_from 1 l.

(** c(1, cumprod(l)[-length(l)]), R/indexing.R:179. *)
Definition steps (l : list Z) : list Z := 1 :: removelast (cumprod l).

(** The sum over the rows of a matrix, given by its rows, for each of its columns. *)
Definition colSums (m : list (list Z)) : list Z :=
  map (fun j => fold_right Z.add 0 (map (fun row => nth j row 0) m)) (seq 0 (length (hd [] m))).

(** multi_to_flat, R/indexing.R:177-181.  [l] are the lengths of the index vectors,
    one for each row of multi_id; the product with [h] multiplies row i by h[i]. *)
Definition multi_to_flat (multi_id : list (list Z)) (l : list Z) : list Z :=
  map (fun s => 1 + s) (colSums (map (fun rh => map (fun m => (m - 1) * snd rh) (fst rh)) (combine multi_id (steps l)))).

(** flatten_vars, R/indexing.R:183-186: the variables, already numbers, are of one
    length and become the rows of multi_id. *)
Definition flatten_vars (vars : list (list Z)) (l : list Z) : list Z := multi_to_flat vars l.
