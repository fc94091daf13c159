(** src/BasisLevel.cpp: the knots, the intervals between them and the cubic spline
    basis functions of one level, in exact arithmetic.  The shifts [1 << level] and
    [2 << level] are read as powers of two (level below 30). *)
From Coq Require Import List Arith ZArith Reals Bool.
From Verif Require Import Model.Base Model.SparseGrid Model.Vectors.
Import ListNotations.
Local Open Scope R_scope.

(** Conversion from double drops the fractional part; undefined if the rest does
    not fit. *)
Definition truncate (v : R) : Z := if Rle_dec 0 v then Int_part v else (- Int_part (- v))%Z.
Definition to_int (v : R) : outcome Z :=
  let z := truncate v in
  if ((- 2 ^ 31 <=? z) && (z <? 2 ^ 31))%Z then Ok z else UB.
Definition to_unsigned (v : R) : outcome nat :=
  let z := truncate v in
  if ((0 <=? z) && (z <? 2 ^ 32))%Z then Ok (Z.to_nat z) else UB.
(** A division by zero gives an infinity or NaN, which cannot be converted. *)
Definition quotient_to_int (a b : R) : outcome Z :=
  if Req_EM_T b 0 then UB else to_int (a / b).

(** Unchecked reading and assignment of an entry of an Eigen matrix. *)
Definition mat_get (m : rmat) (i j : nat) : outcome R :=
  row <- vec_get m i ;; vec_get row j.
Definition mat_set (m : rmat) (i j : nat) (v : R) : outcome rmat :=
  row <- vec_get m i ;; _ <- vec_get row j ;; Ok (upd m i (upd row j v)).
(** A sequence of assignments. *)
Definition assignment := (nat * nat * R)%type.
Definition assign (m : rmat) (l : list assignment) : outcome rmat :=
  foldM (fun m a => mat_set m (fst (fst a)) (snd (fst a)) (snd a)) l m.
Definition zeros (rows cols : nat) : rmat := repeat (repeat 0 cols) rows.

Section BasisLevel.
(** Quantiles of the standard normal distribution (boost), Eigen's inverse() and
    colPivHouseholderQr().solve(). *)
Variable quantile : R -> R.
Variable inverse : rmat -> rmat.
Variable solve : rmat -> rmat -> rmat.

(** scale_, src/BasisLevel.cpp:19. *)
Definition level_scale (levelMax : nat) : R := 1 + INR levelMax / 2.

(** initializeBandwidth, src/BasisLevel.cpp:72-81. *)
Definition bandwidth (levelMax : nat) : R :=
  if Nat.ltb 0 levelMax then level_scale levelMax * quantile (1 / 2 + / 2 ^ (levelMax + 1)) / 10 else 0.

(** The multiple of the bandwidth used in place of a quantile,
    src/BasisLevel.cpp:92-96, 110-112 and 227-231. *)
Definition knot_id (levelMax : nat) (prob : R) : outcome Z :=
  let knot := level_scale levelMax * quantile prob in
  quotient_to_int knot (bandwidth levelMax).

(** initializeKnots, src/BasisLevel.cpp:84-99. *)
Definition find_knots (level levelMax : nat) : outcome (list R) :=
  let N := (2 ^ level)%nat in
  mapM (fun i => id <- knot_id levelMax ((2 * INR i + 1) / (2 * INR N)) ;; Ok (IZR id * bandwidth levelMax))
    (seq 0 N).

(** initializeGridIds, src/BasisLevel.cpp:101-117; state: gridIds_ and knotIdPrev. *)
Definition numKnots (level : nat) : nat := 2 ^ (level + 1) - 1.
Definition total_prob (level i : nat) : R := (INR i + 1) / (INR (numKnots level) + 1).
Definition find_gridIds (level levelMax : nat) : outcome (list nat) :=
  s <- foldM (fun s i =>
         id <- knot_id levelMax (total_prob level i) ;;
         Ok (fst s ++ repeat i (Z.to_nat (id - snd s)), id))
       (seq 0 (numKnots level)) ([], 0%Z) ;;
  Ok (fst s).

(** findKnotsTotal, src/BasisLevel.cpp:217-234. *)
Definition findKnotsTotal (level levelMax : nat) : outcome (list R) :=
  mapM (fun i => id <- knot_id levelMax (total_prob level i) ;; Ok (IZR id * bandwidth levelMax))
    (seq 0 (numKnots level)).

(** The system of equations for level > 1, src/BasisLevel.cpp:128-174, as the
    sequence of assignments to A and B; [k] gives the knots. *)
Definition interpolation_A (k : nat -> R) (i : nat) : list assignment :=
  flat_map (fun j => [((2 * i, 4 * i + j)%nat, k i ^ j); ((2 * i + 1, 4 * i + j)%nat, k (i + 1)%nat ^ j)]) (seq 0 4).
Definition interpolation_B (i : nat) : list assignment :=
  [((2 * i, i)%nat, 1); ((2 * i + 1, i + 1)%nat, 1)].
Definition smoothness_A (n : nat) (k : nat -> R) (i : nat) : list assignment :=
  let rowFirst := (2 * (n - 1) + i - 1)%nat in
  let rowSecond := (rowFirst + n - 2)%nat in
  flat_map (fun j =>
    let colAbove := (4 * (i - 1) + j)%nat in
    let colBelow := (4 * i + j)%nat in
    let first := INR j * k i ^ (j - 1) in
    let second := INR j * INR (j - 1) * k i ^ (j - 2) in
    [((rowFirst, colAbove), first); ((rowFirst, colBelow), - first)] ++
    (if Nat.ltb 1 j then [((rowSecond, colAbove), second); ((rowSecond, colBelow), - second)] else []))
  (seq 1 3).
Definition ends_A (n : nat) : list assignment :=
  [((4 * n - 6, 3)%nat, 6); ((4 * n - 5, 4 * (n - 2) + 3)%nat, 6)].
(** The powers of four knots (of three, for level 1, src/BasisLevel.cpp:186-189). *)
Definition powers (m : nat) (k : nat -> R) : rmat :=
  map (fun i => map (fun j => k i ^ j) (seq 0 m)) (seq 0 m).
Definition ends_B (n : nat) (initialInverse finalInverse : rmat) : outcome (list assignment) :=
  l <- mapM (fun i =>
    a <- mat_get initialInverse 3 i ;;
    b <- mat_get finalInverse 3 i ;;
    Ok [((4 * n - 6, i)%nat, 6 * a); ((4 * n - 5, n - 4 + i)%nat, 6 * b)]) (seq 0 4) ;;
  Ok (concat l).

Definition system_A (n : nat) (k : nat -> R) : list assignment :=
  flat_map (interpolation_A k) (seq 0 (n - 1)) ++ flat_map (smoothness_A n k) (seq 1 (n - 2)) ++ ends_A n.
Definition spline_system (knotsTotal : list R) : outcome (rmat * rmat) :=
  let n := length knotsTotal in
  let k i := nth i knotsTotal 0 in
  A <- assign (zeros (4 * (n - 1)) (4 * (n - 1))) (system_A n k) ;;
  let initialInverse := inverse (powers 4 k) in
  let finalInverse := inverse (powers 4 (fun i => k (n - 4 + i)%nat)) in
  e <- ends_B n initialInverse finalInverse ;;
  B <- assign (zeros (4 * (n - 1)) n) (flat_map interpolation_B (seq 0 (n - 1)) ++ e) ;;
  Ok (A, B).

(** The quadratic of level 1, src/BasisLevel.cpp:184-197, for every interval. *)
Definition quadratic_rows (knotsTotal : list R) : outcome rmat :=
  let powerInverse := inverse (powers 3 (fun i => nth i knotsTotal 0)) in
  rows <- mapM (fun j => vec_get powerInverse j) (seq 0 3) ;;
  Ok (rows ++ [repeat 0 (length knotsTotal)]).

(** coefficientsAllKnots, src/BasisLevel.cpp:126-198: four rows for each interval. *)
Definition coefficients_all (level : nat) (knotsTotal : list R) : outcome rmat :=
  let n := length knotsTotal in
  if Nat.ltb 1 level then
    AB <- spline_system knotsTotal ;;
    let internal := solve (fst AB) (snd AB) in
    Ok (firstn 4 internal ++ internal ++ skipn (length internal - 4) internal)
  else if Nat.eqb level 0 then
    Ok (concat (repeat [[1]; [0]; [0]; [0]] (n + 1)))
  else
    rows <- quadratic_rows knotsTotal ;;
    Ok (concat (repeat rows (n + 1))).

(** initializeSplineCoefficients, src/BasisLevel.cpp:119-202: the columns of the
    knots of this level. *)
Definition splineCoefficients (level levelMax : nat) : outcome rmat :=
  knotsTotal <- findKnotsTotal level levelMax ;;
  all <- coefficients_all level knotsTotal ;;
  mapM (fun r => mapM (fun i => mat_get all r (2 * i)) (seq 0 (2 ^ level))) (seq 0 (4 * 2 ^ (level + 1))).

(** Members, inst/include/BasisLevel.h:25-31. *)
Record level_data := mkData {
  ld_level : nat; ld_knots : list R; ld_spline : rmat; ld_bandwidth : R; ld_gridIds : list nat
}.

(** The constructor, src/BasisLevel.cpp:17-26. *)
Definition level_new (level levelMax : nat) : outcome level_data :=
  knots <- find_knots level levelMax ;;
  ids <- find_gridIds level levelMax ;;
  spline <- splineCoefficients level levelMax ;;
  Ok (mkData level knots spline (bandwidth levelMax) ids).
End BasisLevel.

(** getKnot, src/BasisLevel.cpp:8-11. *)
Definition level_knot (b : level_data) (position : nat) : outcome R := vec_get (ld_knots b) position.

(** findIntervalId, src/BasisLevel.cpp:204-215. *)
Definition findIntervalId (b : level_data) (x : R) : outcome nat :=
  first <- vec_at (ld_knots b) 0 ;;
  if Rlt_dec first x then
    xToGrid <- to_unsigned ((x - first) / ld_bandwidth b) ;;
    if Nat.ltb xToGrid (length (ld_gridIds b)) then vec_get (ld_gridIds b) xToGrid
    else Ok (2 ^ (ld_level b + 1) - 1)%nat
  else Ok 0%nat.

(** The loops of src/BasisLevel.cpp:28-70 over the coefficients of one interval;
    [factor] is what the coefficient of x^i is multiplied with. *)
Definition sum_powers (b : level_data) (factor : nat -> R) (is : list nat) (x : R) (intervalId position : nat)
  : outcome R :=
  s <- foldM (fun s i =>
         c <- mat_get (ld_spline b) (4 * intervalId + i) position ;;
         Ok (fst s + c * factor i * snd s, snd s * x)) is (0, 1) ;;
  Ok (fst s).

(** evaluate, evaluateDerivative, evaluateSecondDerivative, src/BasisLevel.cpp:28-70. *)
Definition level_evaluate (b : level_data) (x : R) (position : nat) : outcome R :=
  intervalId <- findIntervalId b x ;;
  if Nat.ltb 0 (ld_level b) then sum_powers b (fun _ => 1) (seq 0 4) x intervalId position else Ok 1.
Definition level_evaluateDerivative (b : level_data) (x : R) (position : nat) : outcome R :=
  intervalId <- findIntervalId b x ;;
  if Nat.ltb 0 (ld_level b) then sum_powers b INR (seq 1 3) x intervalId position else Ok 0.
Definition level_evaluateSecondDerivative (b : level_data) (x : R) (position : nat) : outcome R :=
  intervalId <- findIntervalId b x ;;
  if Nat.ltb 0 (ld_level b) then
    sum_powers b (fun i => INR i * INR (i - 1)) (seq 2 2) x intervalId position
  else Ok 0.

Definition level_of (b : level_data) : blevel :=
  mkLevel (level_knot b) (level_evaluate b) (level_evaluateDerivative b) (level_evaluateSecondDerivative b).

(** Basis(int), src/Basis.cpp:7-11. *)
Definition basis_new (quantile : R -> R) (inverse : rmat -> rmat) (solve : rmat -> rmat -> rmat)
    (levelMax : nat) : outcome basis :=
  levels <- mapM (fun l => level_new quantile inverse solve l levelMax) (seq 0 (levelMax + 1)) ;;
  Ok (mkBasis (map level_of levels) levelMax).
