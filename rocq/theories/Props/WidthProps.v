(** C59: the width of the cluster graph, compared with other junction trees. *)
From Coq Require Import String List ZArith Reals.
From Verif Require Import Model.Base Model.Family Model.GLMM Model.SplitFrame Model.Mixed Model.ClusterGraph Model.LfunSR
  Spec.Numbers Spec.GLMMSpec Spec.SplitSpec Spec.LfunSpec Spec.TreeSpec Spec.WidthSpec Spec.Toy
  Proofs.WidthMain Proofs.WidthFrame Proofs.WidthCases Proofs.LfunCases.
Import ListNotations.

(** The clusters are themselves a junction tree for the factors, and no other junction
    tree for them is narrower, provided there is one whose bags have at most three
    items. *)
Theorem C59_smallest_width : forall (S : sig) (fs : list (B S)), (forall f, In f fs -> NoDup (bscope S f)) ->
  exists cg, build fs = Ok cg /\
    junction_tree (cl_items cg) /\
    covers (cl_items cg) (map (bscope S) fs) /\
    (exists c, In c (cl_items cg) /\ width cg = Z.of_nat (List.length c)) /\
    forall bags w, junction_tree bags -> covers bags (map (bscope S) fs) ->
      bags_within bags w -> (w <= 3)%nat -> (width cg <= Z.of_nat w)%Z.
Proof. exact @C59_main. Qed.
Print Assumptions C59_smallest_width.

(** With bags of four items this is no longer so: eliminating the first item with the
    fewest neighbours can be worse than necessary. *)
Theorem C59_four_refuted : exists (S : sig) (fs : list (B S)) cg bags,
  (forall f, In f fs -> NoDup (bscope S f)) /\ build fs = Ok cg /\
  junction_tree bags /\ covers bags (map (bscope S) fs) /\ bags_within bags 4 /\ width cg = 5%Z.
Proof. exact C59_four_main. Qed.
Print Assumptions C59_four_refuted.

(** So a frame with one variance parameter is not rejected as too complex if its random
    effects have a junction tree with bags of w <= 3 items and w to the power of 2 nSL is
    at most 500000 (nSL up to 9 for w = 2, and up to 5 for w = 3). *)
Theorem C59_accepted : forall inverse determinant isnormal T scope eval deriv deriv2 integral,
  forall fr l nSL bags w, regular fr -> no_empty fr -> (1 <= List.length (cs_cols (fr_Zt _ fr)))%nat ->
  (forall i, In i (fr_Lind _ fr) -> i = 1%Z) ->
  junction_tree bags -> bags_within bags w -> (w <= 3)%nat -> (Z.of_nat w ^ Z.of_nat (2 * nSL) <= 500000)%Z ->
  (forall o, (o < List.length (cs_cols (fr_Zt _ fr)))%nat ->
     exists b, In b bags /\ forall r, depends (fr_Lambdat _ fr) (fr_Zt _ fr) o r -> In (Z.of_nat r) b) ->
  (forall r, In r (effects fr) -> exists b, In b bags /\ In r b) ->
  exists s, find_lfun_SR inverse determinant isnormal T scope eval deriv deriv2 integral fr 1 "binomial" (link_name l) nSL = Ok s.
Proof. exact C59_accepted_main. Qed.
Print Assumptions C59_accepted.

(** The four-cycle with a pendant has a junction tree with bags of three items, and its
    width is three. *)
Example C59_case : junction_tree [[4; 9]; [1; 2; 3]; [1; 3; 4]]%Z /\
  covers [[4; 9]; [1; 2; 3]; [1; 3; 4]]%Z (map (bscope toy) cycle) /\ bags_within [[4; 9]; [1; 2; 3]; [1; 3; 4]]%Z 3 /\
  on_ok (build cycle) (fun cg => width cg = 3%Z).
Proof. exact cycle_width. Qed.

(** A chain of comparisons. *)
Example C59_accepted_case : regular contests /\ no_empty contests /\ (forall i, In i (fr_Lind _ contests) -> i = 1%Z) /\
  junction_tree [[0; 1]; [1; 2]]%Z /\ bags_within [[0; 1]; [1; 2]]%Z 2 /\ (2 ^ Z.of_nat (2 * 9) <= 500000)%Z /\
  (forall o, (o < List.length (cs_cols (fr_Zt _ contests)))%nat ->
     exists b, In b [[0; 1]; [1; 2]]%Z /\ forall r, depends (fr_Lambdat _ contests) (fr_Zt _ contests) o r -> In (Z.of_nat r) b) /\
  (forall r, In r (effects contests) -> exists b, In b [[0; 1]; [1; 2]]%Z /\ In r b).
Proof. exact contests_narrow. Qed.
