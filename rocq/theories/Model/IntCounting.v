(** src/counting.cpp, src/Point.cpp and the parent loop of src/SparseGrid.cpp again, with
    every int operation checked: a result outside the 32-bit range is undefined behaviour.
    Values that the code keeps in int variables are natural numbers or integers here. *)
From Coq Require Import List Arith ZArith Bool.
From Verif Require Import Model.Base Model.Point Model.Graph.
Import ListNotations.

Definition INT_MAX : Z := 2147483647.
Definition INT_MIN : Z := -2147483648.
Definition chk (z : Z) : outcome Z := if ((INT_MIN <=? z) && (z <=? INT_MAX))%Z then Ok z else UB.

(** a << s on int: undefined for negative operands, shifts of 32 or more and results
    that do not fit. *)
Definition shl (a s : Z) : outcome Z :=
  if ((0 <=? a) && (0 <=? s) && (s <? 32))%Z then chk (a * 2 ^ s) else UB.

(** choose, src/counting.cpp:5-13; the last check is the increment that ends the loop. *)
Definition choose_step (k : nat) (c : Z) (i : nat) : outcome Z :=
  m <- chk (c * Z.of_nat i) ;;
  e <- chk (Z.of_nat i - Z.of_nat k) ;;
  Ok (Z.quot m e).
Definition choose_int (n k : nat) : outcome Z :=
  c <- foldM (choose_step k) (seq (k + 1) (n - k)) 1%Z ;;
  _ <- chk (Z.of_nat (Nat.max n k + 1)) ;;
  Ok c.

(** findNumGridPoints, src/counting.cpp:15-26. *)
Definition numGrid_step (d : nat) (out : Z) (i : nat) : outcome Z :=
  n <- chk (Z.of_nat (d - 1 + i)) ;;
  c <- choose_int (Z.to_nat n) i ;;
  s <- shl 1 (Z.of_nat i) ;;
  m <- chk (c * s) ;;
  chk (out + m).
Definition findNumGridPoints_int (d k : nat) : outcome Z :=
  if 0 <? d then
    k1 <- chk (Z.of_nat (k + 1)) ;;
    foldM (numGrid_step d) (seq 0 (Z.to_nat k1)) 0%Z
  else Ok 1%Z.

(** setIndex, src/Point.cpp:154-178. *)
Definition index1_int (p : point) (s : Z * Z) (t : nat) : outcome (Z * Z) :=
  pos <- vec_at (p_positions p) t ;;
  m <- chk (Z.of_nat pos * snd s) ;;
  i1 <- chk (fst s + m) ;;
  lev <- vec_at (p_levels p) t ;;
  w <- shl 1 (Z.of_nat lev) ;;
  mult <- chk (snd s * w) ;;
  Ok (i1, mult).
Definition index2_int (p : point) (s : nat * Z) (t : nat) : outcome (nat * Z) :=
  lev <- vec_at (p_levels p) t ;;
  let sum := fst s in
  n <- chk (Z.of_nat (t + sum)) ;;
  c <- choose_int (Z.to_nat n) t ;;
  a <- chk (snd s - c) ;;
  sum' <- chk (Z.of_nat (sum + lev)) ;;
  n' <- chk (Z.of_nat (t + Z.to_nat sum')) ;;
  c' <- choose_int (Z.to_nat n') t ;;
  a' <- chk (a + c') ;;
  Ok (Z.to_nat sum', a').
Definition index3_int (dimension : nat) (acc : Z) (s : nat) : outcome Z :=
  n <- chk (Z.of_nat (dimension - 1 + s)) ;;
  c <- choose_int (Z.to_nat n) (dimension - 1) ;;
  w <- shl 1 (Z.of_nat s) ;;
  m <- chk (c * w) ;;
  chk (acc + m).
Definition computeIndex_int (p : point) : outcome Z :=
  let dimension := length (p_levels p) in
  s1 <- foldM (index1_int p) (seq 0 dimension) (0, 1)%Z ;;
  l0 <- vec_at (p_levels p) 0 ;;
  s2 <- foldM (index2_int p) (seq 1 (dimension - 1)) (l0, 0%Z) ;;
  index2 <- shl (snd s2) (Z.of_nat (fst s2)) ;;
  index3 <- foldM (index3_int dimension) (seq 0 (fst s2)) 0%Z ;;
  a <- chk (fst s1 + index2) ;;
  chk (a + index3).
Definition setIndex_int (p : point) : outcome point :=
  i <- computeIndex_int p ;; Ok (mkPoint i (p_levels p) (p_positions p) (p_levelSum p)).

(** setLevelSum, src/Point.cpp:181-187. *)
Definition setLevelSum_int (p : point) : outcome point :=
  s <- foldM (fun acc l => chk (acc + Z.of_nat l)) (p_levels p) 0%Z ;;
  Ok (mkPoint (p_index p) (p_levels p) (p_positions p) (Z.to_nat s)).

(** advancePositionInDirection, src/Point.cpp:222-233. *)
Definition advancePositionInDirection_int (levels positions : list nat) (direction : nat)
  : outcome (bool * list nat) :=
  pos <- vec_at positions direction ;;
  lev <- vec_at levels direction ;;
  w <- shl 1 (Z.of_nat lev) ;;
  m <- chk (w - 1) ;;
  if (Z.of_nat pos <? m)%Z then
    pos' <- chk (Z.of_nat pos + 1) ;; Ok (true, upd positions direction (Z.to_nat pos'))
  else Ok (false, upd positions direction 0).

(** advancePositions, src/Point.cpp:210-220. *)
Fixpoint advancePositions_loop_int (levels positions : list nat) (t n : nat) : outcome (bool * list nat) :=
  match n with
  | O => Ok (false, positions)
  | S n' =>
      r <- advancePositionInDirection_int levels positions t ;;
      t' <- chk (Z.of_nat (t + 1)) ;;
      if fst r : bool then Ok r else advancePositions_loop_int levels (snd r) (Z.to_nat t') n'
  end.
Definition advancePositions_int (levels positions : list nat) : outcome (bool * list nat) :=
  advancePositions_loop_int levels positions 0 (length positions).

(** advanceLevels, src/Point.cpp:194-208; t stays below the number of levels. *)
Definition advanceLevels_int (levels : list nat) (levelSum : nat) : outcome (option (list nat)) :=
  back <- vec_get levels (length levels - 1) ;;
  if back <? levelSum then
    t <- first_nonzero levels ;;
    t1 <- chk (Z.of_nat (t + 1)) ;;
    old <- vec_get levels t ;;
    next <- vec_get levels (Z.to_nat t1) ;;
    next' <- chk (Z.of_nat (next + 1)) ;;
    Ok (Some (upd (upd (upd levels t 0) 0 (old - 1)) (Z.to_nat t1) (Z.to_nat next')))
  else Ok None.

(** advance, src/Point.cpp:113-129. *)
Definition advance_int (p : point) : outcome point :=
  index <- chk (p_index p + 1) ;;
  r <- advancePositions_int (p_levels p) (p_positions p) ;;
  if fst r : bool then Ok (mkPoint index (p_levels p) (snd r) (p_levelSum p))
  else
    l <- advanceLevels_int (p_levels p) (p_levelSum p) ;;
    match l with
    | Some levels => Ok (mkPoint index levels (snd r) (p_levelSum p))
    | None =>
        sum <- chk (Z.of_nat (p_levelSum p + 1)) ;;
        let zeros := map (fun _ => 0) (p_levels p) in
        _ <- vec_at zeros 0 ;;
        Ok (mkPoint index (upd zeros 0 (Z.to_nat sum)) (snd r) (Z.to_nat sum))
    end.

(** advanceInDirection, src/Point.cpp:131-138. *)
Definition advanceInDirection_int (p : point) (direction : nat) : outcome point :=
  r <- advancePositionInDirection_int (p_levels p) (p_positions p) direction ;;
  p' <- (if fst r : bool then Ok (mkPoint (p_index p) (p_levels p) (snd r) (p_levelSum p))
         else
           lev <- vec_at (p_levels p) direction ;;
           lev' <- chk (Z.of_nat (lev + 1)) ;;
           setLevelSum_int (mkPoint (p_index p) (upd (p_levels p) direction (Z.to_nat lev')) (snd r)
                                    (p_levelSum p))) ;;
  setIndex_int p'.

(** firstParent, src/Point.cpp:140-148. *)
Definition firstParent_int (p : point) (direction : nat) : outcome point :=
  _ <- vec_at (p_levels p) direction ;;
  _ <- vec_at (p_positions p) direction ;;
  q <- setLevelSum_int (mkPoint (p_index p) (upd (p_levels p) direction 0)
                                (upd (p_positions p) direction 0) (p_levelSum p)) ;;
  setIndex_int q.

(** The parent loop of hierarchize, src/SparseGrid.cpp:105-111. *)
Fixpoint parents_loop_int (fuel level : nat) (t : nat) (parent : point) : outcome (list point) :=
  lev <- getLevel parent t ;;
  if lev <? level then
    match fuel with
    | O => NoFuel
    | S fuel' =>
        parent' <- advanceInDirection_int parent t ;;
        rest <- parents_loop_int fuel' level t parent' ;;
        Ok (parent :: rest)
    end
  else Ok [].
Definition parents_int (p : point) (t : nat) : outcome (list point) :=
  parent <- firstParent_int p t ;;
  level <- getLevel p t ;;
  parents_loop_int (2 ^ level) level t parent.

(** The guard in find_lfun_SR, R/loglikelihood.R:52-53, on integers: the R code computes
    the power in double precision, which is exact up to the limit. *)
Definition complexity_limit : Z := 500000.
Definition admitted_by_guard (width nSL : nat) : Prop :=
  (Z.of_nat width ^ (2 * Z.of_nat nSL) <= complexity_limit)%Z.

(** isComplete, src/Graph.cpp:120-124. *)
Definition isComplete_int (g : graph) : outcome bool :=
  m <- chk (g_nv g - 1) ;;
  p <- chk (g_nv g * m) ;;
  Ok (Z.eqb (g_ne g) (Z.quot p 2)).
