(** src/BasisLevel.cpp where an undefined conversion of a double delivers some integer,
    as it does on usual machines, instead of being undefined behaviour.  The functions
    are those of Model/BasisLevel.v except for the conversions; nothing is assumed about
    the integers, which may differ from place to place. *)
From Coq Require Import List Arith ZArith Reals Bool.
From Verif Require Import Model.Base Model.SparseGrid Model.Vectors Model.BasisLevel.
Import ListNotations.
Local Open Scope R_scope.

(** Where initializeKnots, initializeGridIds and findKnotsTotal convert,
    src/BasisLevel.cpp:95, 112 and 229. *)
Inductive site := InKnots | InGridIds | InKnotsTotal.

Section AnyConversion.
(** Results of undefined conversions: to int in round i of the loop at a place, and to
    unsigned int in findIntervalId for x. *)
Variable any_int : site -> nat -> Z.
Variable any_unsigned : R -> nat.
Variable quantile : R -> R.
Variable inverse : rmat -> rmat.
Variable solve : rmat -> rmat -> rmat.

(** src/BasisLevel.cpp:92-96, 110-112 and 227-231. *)
Definition any_knot_id (p : site) (i levelMax : nat) (prob : R) : Z :=
  match knot_id quantile levelMax prob with Ok z => z | _ => any_int p i end.

(** initializeKnots, src/BasisLevel.cpp:84-99. *)
Definition any_knots (level levelMax : nat) : list R :=
  let N := (2 ^ level)%nat in
  map (fun i => IZR (any_knot_id InKnots i levelMax ((2 * INR i + 1) / (2 * INR N))) * bandwidth quantile levelMax)
    (seq 0 N).

(** initializeGridIds, src/BasisLevel.cpp:101-117; state: gridIds_ and knotIdPrev. *)
Definition any_gridIds (level levelMax : nat) : list nat :=
  fst (fold_left (fun s i =>
         let id := any_knot_id InGridIds i levelMax (total_prob level i) in
         (fst s ++ repeat i (Z.to_nat (id - snd s)), id))
       (seq 0 (numKnots level)) ([], 0%Z)).

(** findKnotsTotal, src/BasisLevel.cpp:217-234. *)
Definition any_knotsTotal (level levelMax : nat) : list R :=
  map (fun i => IZR (any_knot_id InKnotsTotal i levelMax (total_prob level i)) * bandwidth quantile levelMax)
    (seq 0 (numKnots level)).

(** initializeSplineCoefficients, src/BasisLevel.cpp:119-202. *)
Definition any_splineCoefficients (level levelMax : nat) : outcome rmat :=
  all <- coefficients_all inverse solve level (any_knotsTotal level levelMax) ;;
  mapM (fun r => mapM (fun i => mat_get all r (2 * i)) (seq 0 (2 ^ level))) (seq 0 (4 * 2 ^ (level + 1))).

(** The constructor, src/BasisLevel.cpp:17-26. *)
Definition any_level_new (level levelMax : nat) : outcome level_data :=
  spline <- any_splineCoefficients level levelMax ;;
  Ok (mkData level (any_knots level levelMax) spline (bandwidth quantile levelMax) (any_gridIds level levelMax)).

(** findIntervalId, src/BasisLevel.cpp:204-215. *)
Definition any_to_grid (b : level_data) (first x : R) : nat :=
  if Req_EM_T (ld_bandwidth b) 0 then any_unsigned x
  else match to_unsigned ((x - first) / ld_bandwidth b) with Ok n => n | _ => any_unsigned x end.
Definition any_findIntervalId (b : level_data) (x : R) : outcome nat :=
  first <- vec_at (ld_knots b) 0 ;;
  if Rlt_dec first x then
    let xToGrid := any_to_grid b first x in
    if Nat.ltb xToGrid (length (ld_gridIds b)) then vec_get (ld_gridIds b) xToGrid
    else Ok (2 ^ (ld_level b + 1) - 1)%nat
  else Ok 0%nat.

(** evaluate, evaluateDerivative, evaluateSecondDerivative, src/BasisLevel.cpp:28-70. *)
Definition any_evaluate (b : level_data) (x : R) (position : nat) : outcome R :=
  intervalId <- any_findIntervalId b x ;;
  if Nat.ltb 0 (ld_level b) then sum_powers b (fun _ => 1) (seq 0 4) x intervalId position else Ok 1.
Definition any_evaluateDerivative (b : level_data) (x : R) (position : nat) : outcome R :=
  intervalId <- any_findIntervalId b x ;;
  if Nat.ltb 0 (ld_level b) then sum_powers b INR (seq 1 3) x intervalId position else Ok 0.
Definition any_evaluateSecondDerivative (b : level_data) (x : R) (position : nat) : outcome R :=
  intervalId <- any_findIntervalId b x ;;
  if Nat.ltb 0 (ld_level b) then
    sum_powers b (fun i => INR i * INR (i - 1)) (seq 2 2) x intervalId position
  else Ok 0.

Definition any_level_of (b : level_data) : blevel :=
  mkLevel (level_knot b) (any_evaluate b) (any_evaluateDerivative b) (any_evaluateSecondDerivative b).

(** Basis(int), src/Basis.cpp:7-11. *)
Definition any_basis_new (levelMax : nat) : outcome basis :=
  levels <- mapM (fun l => any_level_new l levelMax) (seq 0 (levelMax + 1)) ;;
  Ok (mkBasis (map any_level_of levels) levelMax).
End AnyConversion.
