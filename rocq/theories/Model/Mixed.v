(** src/MixedContinuousBelief.cpp and src/NormalBelief.cpp.

    The double type, the continuous beliefs (ContinuousBelief, i.e. GLMM,
    normal or sparse-grid factors) and the multivariate normals (MultiNormal)
    are a signature [sig]; the parameters object that is passed along unchanged
    is folded into the operations of the signature.  Property theorems quantify
    over every signature (with laws stated in the theorem). *)
From Coq Require Import List ZArith Bool.
From Verif Require Import Model.Base Model.Items.
Import ListNotations.

Record sig := mkSig {
  D : Type;                                  (* double *)
  dzero : D;
  dadd : D -> D -> D;
  dsub : D -> D -> D;
  dopp : D -> D;
  d_isnormal : D -> bool;                    (* std::isnormal *)
  B : Type;                                  (* ContinuousBelief *)
  bscope : B -> list Z;                      (* ContinuousBelief::getItems *)
  beval : B -> list D -> D;                  (* ContinuousBelief::evaluate *)
  bderiv : B -> list D -> list D;            (* evaluateDerivative *)
  bderiv2 : B -> list D -> list (list D);    (* evaluateSecondDerivative *)
  MN : Type;                                 (* MultiNormal *)
  mn_given : list D -> list (list D) -> MN;  (* MultiNormal(mean, precision) *)
  mn_mul : MN -> MN -> list nat -> MN;       (* multiplySubset *)
  mn_div : MN -> MN -> list nat -> MN;       (* divideSubset *)
  mn_marginal : MN -> list nat -> MN;        (* computeMarginal *)
  mn_mean : MN -> list D;                    (* getMean *)
  mn_eval : MN -> list D -> D;               (* evaluate *)
  (* IntegratedFunction + SparseBelief: from a function with its first and
     second derivatives, the position of the argument to integrate and the
     normal approximation, store the integral as a belief on the given items,
     src/MixedContinuousBelief.cpp:74-102 *)
  b_integral : (list D -> outcome D) -> (list D -> outcome (list D)) ->
               (list D -> outcome (list (list D))) ->
               nat -> MN -> list Z -> outcome B
}.

Section Mixed.
Variable S : sig.

(** NormalBelief, inst/include/NormalBelief.h (items_ of BeliefBase, normal_,
    logNormalizingConstant_). *)
Record nbelief := mkN { n_items : list Z; n_normal : MN S; n_logc : D S }.

(** NormalBelief(items), src/NormalBelief.cpp:17-23. *)
Definition n_new (items : list Z) : nbelief :=
  let k := length items in
  mkN items (mn_given S (repeat (dzero S) k) (repeat (repeat (dzero S) k) k)) (dzero S).

(** NormalBelief(items, mean, precision), src/NormalBelief.cpp:34-41. *)
Definition n_given (items : list Z) (mean : list (D S)) (prec : list (list (D S))) : nbelief :=
  mkN items (mn_given S mean prec) (dzero S).

(** operator*=, src/NormalBelief.cpp:61-70. *)
Definition n_mul (n other : nbelief) : nbelief :=
  mkN (n_items n)
      (mn_mul S (n_normal n) (n_normal other) (findRelativeItems (n_items other) (n_items n)))
      (dadd S (n_logc n) (n_logc other)).

(** operator/=, src/NormalBelief.cpp:72-77. *)
Definition n_div (n other : nbelief) : nbelief :=
  mkN (n_items n)
      (mn_div S (n_normal n) (n_normal other) (findRelativeItems (n_items other) (n_items n)))
      (dsub S (n_logc n) (n_logc other)).

(** margin, src/NormalBelief.cpp:79-85. *)
Definition n_margin (n : nbelief) (items : list Z) : nbelief :=
  mkN items (mn_marginal S (n_normal n) (findRelativeItems items (n_items n))) (n_logc n).

(** evaluate, src/NormalBelief.cpp:99-102. *)
Definition n_eval (n : nbelief) (x : list (D S)) : D S :=
  dadd S (n_logc n) (mn_eval S (n_normal n) x).


(** Private members, inst/include/MixedContinuousBelief.h:39-44. *)
Record mixed := mkMixed {
  m_items : list Z;
  m_beliefs : list (B S);
  m_rel : list (list nat);
  m_inv : list bool;
  m_normal : nbelief;
  m_fixed : bool
}.

(** MixedContinuousBelief(items), src/MixedContinuousBelief.cpp:16-20. *)
Definition mixed_of_items (items : list Z) : mixed :=
  mkMixed items [] [] [] (n_new items) false.

(** recomputeRelativeItems, src/MixedContinuousBelief.cpp:248-254. *)
Definition recompute (m : mixed) : mixed :=
  mkMixed (m_items m) (m_beliefs m)
          (map (fun b => findRelativeItems (bscope S b) (m_items m)) (m_beliefs m))
          (m_inv m) (m_normal m) (m_fixed m).

(** MixedContinuousBelief(belief), src/MixedContinuousBelief.cpp:22-30. *)
Definition mixed_of_belief (b : B S) : mixed :=
  recompute (mkMixed (bscope S b) [b] [] [false] (n_new (bscope S b)) false).

(** setNormalApprox(mean, precision), src/MixedContinuousBelief.cpp:40-45. *)
Definition setNormalApprox (m : mixed) (mean : list (D S)) (prec : list (list (D S))) : mixed :=
  if m_fixed m then m
  else mkMixed (m_items m) (m_beliefs m) (m_rel m) (m_inv m)
               (n_given (m_items m) mean prec) (m_fixed m).

(** setNormalApprox(normalApprox), src/MixedContinuousBelief.cpp:47-52. *)
Definition setNormal (m : mixed) (n : nbelief) : mixed :=
  if m_fixed m then m
  else mkMixed (m_items m) (m_beliefs m) (m_rel m) (m_inv m) n (m_fixed m).

(** fixNormalApprox, src/MixedContinuousBelief.cpp:54-57. *)
Definition fixNormalApprox (m : mixed) : mixed :=
  mkMixed (m_items m) (m_beliefs m) (m_rel m) (m_inv m) (m_normal m) true.

(** findSubset, src/matrixHelper.cpp:3-12: unchecked Eigen access. *)
Definition findSubset (x : list (D S)) (subset : list nat) : outcome (list (D S)) :=
  mapM (vec_get x) subset.

(** Loop of evaluate, src/MixedContinuousBelief.cpp:180-189; [index] is the
    position of the head of [bs] in beliefs_. *)
Fixpoint eval_loop (m : mixed) (x : list (D S)) (bs : list (B S)) (index : nat)
                   (ret : D S) : outcome (D S) :=
  match bs with
  | [] => Ok ret
  | b :: bs' =>
      rel <- vec_at (m_rel m) index ;;
      xs <- findSubset x rel ;;
      let value := beval S b xs in
      inv <- vec_at (m_inv m) index ;;
      eval_loop m x bs' (index + 1)
                (if inv : bool then dsub S ret value else dadd S ret value)
  end.

(** evaluate, src/MixedContinuousBelief.cpp:176-191. *)
Definition evaluate (m : mixed) (x : list (D S)) : outcome (D S) :=
  eval_loop m x (m_beliefs m) 0 (dzero S).

(** addVectorSubset, src/matrixHelper.cpp:14-21: unchecked Eigen access. *)
Fixpoint addVectorSubset (v : list (D S)) (subset : list nat) (toAdd : list (D S))
  : outcome (list (D S)) :=
  match subset with
  | [] => Ok v
  | k :: subset' =>
      match toAdd with
      | [] => UB
      | t :: toAdd' =>
          x <- vec_get v k ;;
          addVectorSubset (upd v k (dadd S x t)) subset' toAdd'
      end
  end.

(** addMatrixSubset, src/matrixHelper.cpp:23-30: the inner loop adds row i of
    toAdd into row subset(i) of the matrix. *)
Fixpoint addMatrixRows (mat : list (list (D S))) (rows cols : list nat)
                       (toAdd : list (list (D S))) : outcome (list (list (D S))) :=
  match rows with
  | [] => Ok mat
  | k :: rows' =>
      match toAdd with
      | [] => UB
      | t :: toAdd' =>
          r <- vec_get mat k ;;
          r' <- addVectorSubset r cols t ;;
          addMatrixRows (upd mat k r') rows' cols toAdd'
      end
  end.
Definition addMatrixSubset (mat : list (list (D S))) (subset : list nat)
           (toAdd : list (list (D S))) : outcome (list (list (D S))) :=
  addMatrixRows mat subset subset toAdd.

(** Loop of evaluateDerivative, src/MixedContinuousBelief.cpp:198-207. *)
Fixpoint deriv_loop (m : mixed) (x : list (D S)) (bs : list (B S)) (index : nat)
                    (ret : list (D S)) : outcome (list (D S)) :=
  match bs with
  | [] => Ok ret
  | b :: bs' =>
      let rel := findRelativeItems (bscope S b) (m_items m) in
      xs <- findSubset x rel ;;
      let d := bderiv S b xs in
      inv <- vec_at (m_inv m) index ;;
      ret' <- addVectorSubset ret rel (if inv : bool then map (dopp S) d else d) ;;
      deriv_loop m x bs' (index + 1) ret'
  end.

(** evaluateDerivative, src/MixedContinuousBelief.cpp:193-209. *)
Definition evaluateDerivative (m : mixed) (x : list (D S)) : outcome (list (D S)) :=
  deriv_loop m x (m_beliefs m) 0 (repeat (dzero S) (length x)).

(** Loop of evaluateSecondDerivative, src/MixedContinuousBelief.cpp:216-225. *)
Fixpoint deriv2_loop (m : mixed) (x : list (D S)) (bs : list (B S)) (index : nat)
                     (ret : list (list (D S))) : outcome (list (list (D S))) :=
  match bs with
  | [] => Ok ret
  | b :: bs' =>
      let rel := findRelativeItems (bscope S b) (m_items m) in
      xs <- findSubset x rel ;;
      let d := bderiv2 S b xs in
      inv <- vec_at (m_inv m) index ;;
      ret' <- addMatrixSubset ret rel (if inv : bool then map (map (dopp S)) d else d) ;;
      deriv2_loop m x bs' (index + 1) ret'
  end.

(** evaluateSecondDerivative, src/MixedContinuousBelief.cpp:211-227. *)
Definition evaluateSecondDerivative (m : mixed) (x : list (D S))
  : outcome (list (list (D S))) :=
  deriv2_loop m x (m_beliefs m) 0 (repeat (repeat (dzero S) (length x)) (length x)).

(** operator*=, src/MixedContinuousBelief.cpp:143-157. *)
Definition mixed_mul (m other : mixed) : mixed :=
  let n := if m_fixed m then m_normal m else n_mul (m_normal m) (m_normal other) in
  recompute
    (mkMixed (n_items n) (m_beliefs m ++ m_beliefs other) (m_rel m)
             (m_inv m ++ m_inv other) n (m_fixed m)).

(** operator/=, src/MixedContinuousBelief.cpp:160-173. *)
Definition mixed_div (m other : mixed) : mixed :=
  let n := if m_fixed m then m_normal m else n_div (m_normal m) (m_normal other) in
  recompute
    (mkMixed (n_items n) (m_beliefs m ++ m_beliefs other) (m_rel m)
             (m_inv m ++ map negb (m_inv other)) n (m_fixed m)).

(** vector::erase(begin() + k). *)
Fixpoint erase {A} (l : list A) (k : nat) : list A :=
  match l, k with
  | [], _ => []
  | _ :: l', O => l'
  | x :: l', Datatypes.S k' => x :: erase l' k'
  end.

(** integrate, src/MixedContinuousBelief.cpp:59-107.  normalMargin (line 97) is a
    function of the normal and the position and is left to [b_integral]. *)
Definition integrate (m : mixed) (item : Z) : outcome mixed :=
  let relativeItem := findRelativeItem item (m_items m) in
  let remainingItems := erase (m_items m) relativeItem in
  belief <- b_integral S (evaluate m) (evaluateDerivative m) (evaluateSecondDerivative m)
                       relativeItem (n_normal (m_normal m)) remainingItems ;;
  Ok (setNormal (mixed_of_belief belief) (n_margin (m_normal m) remainingItems)).

(** margin, src/MixedContinuousBelief.cpp:109-132 (the unused locals
    integratedItems and remainingItems are left out). *)
Definition margin (m : mixed) (items : list Z) (normalApproxOnly : bool) : outcome mixed :=
  if normalApproxOnly then
    Ok (setNormal (mixed_of_items items) (n_margin (m_normal m) items))
  else
    foldM integrate (findItemsDifference (m_items m) items) m.

(** computeLogNormalizingConstant, src/MixedContinuousBelief.cpp:134-141. *)
Definition mixed_logNormalizingConstant (m : mixed) : outcome (D S) :=
  beliefEmpty <- margin m [] false ;;
  evaluate beliefEmpty [].

(** isProper, src/MixedContinuousBelief.cpp:229-246. *)
Definition isProper (m : mixed) : outcome bool :=
  let normalMean := mn_mean S (n_normal (m_normal m)) in
  p1 <- (if (0 <? length (m_beliefs m))%nat
         then evalAtMean <- evaluate m normalMean ;; Ok (d_isnormal S evalAtMean)
         else Ok true) ;;
  Ok (p1 && d_isnormal S (n_eval (m_normal m) normalMean)).

End Mixed.

Arguments mkN {S}. Arguments n_items {S}. Arguments n_normal {S}. Arguments n_logc {S}.
Arguments n_new {S}. Arguments n_given {S}. Arguments n_mul {S}. Arguments n_div {S}.
Arguments n_margin {S}. Arguments n_eval {S}.
Arguments addVectorSubset {S}. Arguments addMatrixRows {S}. Arguments addMatrixSubset {S}.
Arguments deriv_loop {S}. Arguments evaluateDerivative {S}.
Arguments deriv2_loop {S}. Arguments evaluateSecondDerivative {S}.
Arguments mkMixed {S}. Arguments m_items {S}. Arguments m_beliefs {S}.
Arguments m_rel {S}. Arguments m_inv {S}. Arguments m_normal {S}. Arguments m_fixed {S}.
Arguments mixed_of_items {S}. Arguments mixed_of_belief {S}. Arguments recompute {S}.
Arguments setNormalApprox {S}. Arguments setNormal {S}. Arguments fixNormalApprox {S}.
Arguments findSubset {S}. Arguments eval_loop {S}. Arguments evaluate {S}.
Arguments mixed_mul {S}. Arguments mixed_div {S}. Arguments integrate {S}.
Arguments margin {S}. Arguments mixed_logNormalizingConstant {S}. Arguments isProper {S}.
