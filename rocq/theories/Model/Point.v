(** src/Point.cpp: a point of the sparse grid.  Integers are unbounded here;
    Model/IntCounting.v treats overflow. *)
From Coq Require Import List Arith ZArith Bool.
From Verif Require Import Model.Base Model.Counting.
Import ListNotations.

(** Members, inst/include/Point.h:37-40. *)
Record point := mkPoint {
  p_index : Z;
  p_levels : list nat;
  p_positions : list nat;
  p_levelSum : nat
}.

(** Point(int), src/Point.cpp:6-8. *)
Definition point_new (dimension : nat) : point :=
  mkPoint 0 (repeat 0 dimension) (repeat 0 dimension) 0.

(** getLevel and getPosition, src/Point.cpp:28-36. *)
Definition getLevel (p : point) (direction : nat) : outcome nat := vec_at (p_levels p) direction.
Definition getPosition (p : point) (direction : nat) : outcome nat := vec_at (p_positions p) direction.

(** First loop of setIndex, src/Point.cpp:157-162. *)
Definition index1_step (p : point) (s : Z * Z) (t : nat) : outcome (Z * Z) :=
  pos <- vec_at (p_positions p) t ;;
  lev <- vec_at (p_levels p) t ;;
  Ok (fst s + Z.of_nat pos * snd s, snd s * 2 ^ Z.of_nat lev)%Z.

(** Second loop of setIndex, src/Point.cpp:166-170; state (sum, index2). *)
Definition index2_step (p : point) (s : nat * Z) (t : nat) : outcome (nat * Z) :=
  lev <- vec_at (p_levels p) t ;;
  let sum := fst s in
  Ok ((sum + lev)%nat, snd s - Z.of_nat (choose (t + sum) t) + Z.of_nat (choose (t + (sum + lev)) t))%Z.

(** setIndex, src/Point.cpp:154-178. *)
Definition computeIndex (p : point) : outcome Z :=
  let dimension := length (p_levels p) in
  s1 <- foldM (index1_step p) (seq 0 dimension) (0, 1)%Z ;;
  l0 <- vec_at (p_levels p) 0 ;;
  s2 <- foldM (index2_step p) (seq 1 (dimension - 1)) (l0, 0%Z) ;;
  let sum := fst s2 in
  let index2 := (snd s2 * 2 ^ Z.of_nat sum)%Z in
  let index3 := fold_left (fun acc s =>
        acc + Z.of_nat (choose (dimension - 1 + s) (dimension - 1)) * 2 ^ Z.of_nat s)%Z
      (seq 0 sum) 0%Z in
  Ok (fst s1 + index2 + index3)%Z.

Definition setIndex (p : point) : outcome point :=
  i <- computeIndex p ;; Ok (mkPoint i (p_levels p) (p_positions p) (p_levelSum p)).

(** setLevelSum, src/Point.cpp:181-187. *)
Definition setLevelSum (p : point) : point :=
  mkPoint (p_index p) (p_levels p) (p_positions p) (fold_left Nat.add (p_levels p) 0).

(** advancePositionInDirection, src/Point.cpp:222-233: success, new positions. *)
Definition advancePositionInDirection (levels positions : list nat) (direction : nat)
  : outcome (bool * list nat) :=
  pos <- vec_at positions direction ;;
  lev <- vec_at levels direction ;;
  if pos <? 2 ^ lev - 1 then Ok (true, upd positions direction (pos + 1))
  else Ok (false, upd positions direction 0).

(** advancePositions, src/Point.cpp:210-220; [n] is d - t. *)
Fixpoint advancePositions_loop (levels positions : list nat) (t n : nat) : outcome (bool * list nat) :=
  match n with
  | O => Ok (false, positions)
  | S n' =>
      r <- advancePositionInDirection levels positions t ;;
      if fst r : bool then Ok r else advancePositions_loop levels (snd r) (t + 1) n'
  end.
Definition advancePositions (levels positions : list nat) : outcome (bool * list nat) :=
  advancePositions_loop levels positions 0 (length positions).

(** while(levels_[t] == 0) ++t, src/Point.cpp:201-202; reading past the end is
    undefined. *)
Fixpoint first_nonzero (levels : list nat) : outcome nat :=
  match levels with
  | [] => UB
  | 0 :: ls => t <- first_nonzero ls ;; Ok (t + 1)
  | S _ :: _ => Ok 0
  end.

(** advanceLevels, src/Point.cpp:194-208: None for false. *)
Definition advanceLevels (levels : list nat) (levelSum : nat) : outcome (option (list nat)) :=
  back <- vec_get levels (length levels - 1) ;;
  if back <? levelSum then
    t <- first_nonzero levels ;;
    old <- vec_get levels t ;;
    next <- vec_get levels (t + 1) ;;
    Ok (Some (upd (upd (upd levels t 0) 0 (old - 1)) (t + 1) (next + 1)))
  else Ok None.

(** advance, src/Point.cpp:113-129. *)
Definition advance (p : point) : outcome point :=
  let index := (p_index p + 1)%Z in
  r <- advancePositions (p_levels p) (p_positions p) ;;
  if fst r : bool then Ok (mkPoint index (p_levels p) (snd r) (p_levelSum p))
  else
    l <- advanceLevels (p_levels p) (p_levelSum p) ;;
    match l with
    | Some levels => Ok (mkPoint index levels (snd r) (p_levelSum p))
    | None =>
        let sum := p_levelSum p + 1 in
        let zeros := map (fun _ => 0) (p_levels p) in
        _ <- vec_at zeros 0 ;;
        Ok (mkPoint index (upd zeros 0 sum) (snd r) sum)
    end.

(** advanceInDirection, src/Point.cpp:131-138. *)
Definition advanceInDirection (p : point) (direction : nat) : outcome point :=
  r <- advancePositionInDirection (p_levels p) (p_positions p) direction ;;
  p' <- (if fst r : bool then Ok (mkPoint (p_index p) (p_levels p) (snd r) (p_levelSum p))
         else
           lev <- vec_at (p_levels p) direction ;;
           Ok (setLevelSum (mkPoint (p_index p) (upd (p_levels p) direction (lev + 1)) (snd r)
                                    (p_levelSum p)))) ;;
  setIndex p'.

(** firstParent, src/Point.cpp:140-148. *)
Definition firstParent (p : point) (direction : nat) : outcome point :=
  _ <- vec_at (p_levels p) direction ;;
  _ <- vec_at (p_positions p) direction ;;
  setIndex (setLevelSum (mkPoint (p_index p) (upd (p_levels p) direction 0)
                                 (upd (p_positions p) direction 0) (p_levelSum p))).
