(** Dense vectors and matrices of exact numbers as lists (of rows), and
    src/subsetEigen.cpp.  From here on [double] is read as a real number.  Sizes
    are not checked (nor does Eigen with NDEBUG); the properties assume that they
    fit. *)
From Coq Require Import List Reals.
From Verif Require Import Model.Base Model.Mixed.
Import ListNotations.
Local Open Scope R_scope.

Notation rvec := (list R).
Notation rmat := (list (list R)).

Definition map2 {A B C} (f : A -> B -> C) (a : list A) (b : list B) : list C :=
  map (fun p => f (fst p) (snd p)) (combine a b).
Definition vadd : rvec -> rvec -> rvec := map2 Rplus.
Definition vsub : rvec -> rvec -> rvec := map2 Rminus.
Definition vscale (c : R) (v : rvec) : rvec := map (Rmult c) v.
Definition vneg (v : rvec) : rvec := map Ropp v.
Definition vdot (a b : rvec) : R := fold_right Rplus 0 (map2 Rmult a b).
Definition madd : rmat -> rmat -> rmat := map2 vadd.
Definition msub : rmat -> rmat -> rmat := map2 vsub.
Definition mscale (c : R) (m : rmat) : rmat := map (vscale c) m.
(** A v, v^T A, a b^T. *)
Definition mvmul (m : rmat) (v : rvec) : rvec := map (fun row => vdot row v) m.
Definition vmmul (v : rvec) (m : rmat) : rvec :=
  fold_right (fun xr acc => vadd (vscale (fst xr) (snd xr)) acc) (repeat 0 (length (hd [] m))) (combine v m).
Definition outer (a b : rvec) : rmat := map (fun x => vscale x b) a.
Definition mzero (d : nat) : rmat := repeat (repeat 0 d) d.
Definition midentity (d : nat) : rmat :=
  map (fun i => map (fun j => if Nat.eqb i j then 1 else 0) (seq 0 d)) (seq 0 d).

(** getVectorWithout, getMatrixWithout, src/subsetEigen.cpp:10-39. *)
Definition getVectorWithout {A} (index : nat) (v : list A) : list A := erase v index.
Definition getMatrixWithout (index : nat) (m : rmat) : rmat :=
  map (getVectorWithout index) (erase m index).
(** setVectorWithout into a longer vector, then the missing component is set:
    src/subsetEigen.cpp:24-29 as used in src/IntegratedFunction.cpp:103-108. *)
Fixpoint insert {A} (index : nat) (v : list A) (t : A) : list A :=
  match index, v with
  | S i, x :: v' => x :: insert i v' t
  | _, _ => t :: v
  end.

(** getVectorSubset, getMatrixSubset, src/subsetEigen.cpp:40-59. *)
Definition vsubset (v : rvec) (subset : list nat) : rvec := map (fun i => nth i v 0) subset.
Definition msubset (m : rmat) (subset : list nat) : rmat :=
  map (fun i => map (fun j => nth j (nth i m []) 0) subset) subset.

(** setVectorSubset, src/subsetEigen.cpp:60-65. *)
Fixpoint setVectorSubset (target source : rvec) (subset : list nat) : rvec :=
  match subset, source with
  | k :: subset', t :: source' => setVectorSubset (upd target k t) source' subset'
  | _, _ => target
  end.
(** setMatrixSubset, src/subsetEigen.cpp:68-74: row by row. *)
Fixpoint setMatrixRows (target source : rmat) (rows cols : list nat) : rmat :=
  match rows, source with
  | k :: rows', t :: source' =>
      setMatrixRows (upd target k (setVectorSubset (nth k target []) t cols)) source' rows' cols
  | _, _ => target
  end.
Definition setMatrixSubset (target source : rmat) (subset : list nat) : rmat :=
  setMatrixRows target source subset subset.
