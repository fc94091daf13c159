(** The multivariate normals of the cluster graph made concrete: the operations of
    Model/Mixed.v on them are those of Model/MultiNormal.v, in exact arithmetic.
    Everything else (continuous beliefs and their integrals) stays arbitrary. *)
From Coq Require Import List Reals ZArith Bool.
From Verif Require Import Model.Base Model.Vectors Model.Mixed Model.MultiNormal.
Import ListNotations.
Local Open Scope R_scope.

(** NormalBelief::normal_ is a MultiNormal, inst/include/NormalBelief.h; the calls
    are those of src/NormalBelief.cpp:17-102. *)
Definition normal_sig (inverse : rmat -> rmat) (determinant : rmat -> R) (isnormal : R -> bool)
    (B : Type) (bscope : B -> list Z) (beval : B -> list R -> R) (bderiv : B -> list R -> list R)
    (bderiv2 : B -> list R -> list (list R))
    (integral : (list R -> outcome R) -> (list R -> outcome (list R)) ->
                (list R -> outcome (list (list R))) -> nat -> mnormal -> list Z -> outcome B) : sig :=
  mkSig R 0 Rplus Rminus Ropp isnormal B bscope beval bderiv bderiv2
    mnormal (normal_given inverse determinant) (multiplySubset inverse determinant)
    (divideSubset inverse determinant) (computeMarginal inverse determinant)
    no_mean normal_evaluate integral.
