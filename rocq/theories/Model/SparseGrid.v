(** src/Basis.cpp, src/SparseGrid.cpp and the basis functions of src/Point.cpp.
    Numbers are real numbers.  A one-dimensional level of the basis is a knot
    function and an evaluation function; Model/BasisLevel.v gives the real ones. *)
From Coq Require Import List Arith ZArith Reals Bool.
From Verif Require Import Model.Base Model.Counting Model.Point.
Import ListNotations.
Local Open Scope R_scope.

(** Interface of BasisLevel, inst/include/BasisLevel.h:15-23. *)
Record blevel := mkLevel {
  bl_knot : nat -> outcome R;
  bl_eval : R -> nat -> outcome R;
  bl_deriv : R -> nat -> outcome R;
  bl_deriv2 : R -> nat -> outcome R
}.

(** Basis, inst/include/Basis.h:21-23. *)
Record basis := mkBasis { b_levels : list blevel; b_levelMax : nat }.

(** src/Basis.cpp:13-31; [basisLevels_[level]] is unchecked. *)
Definition b_evaluate (b : basis) (x : R) (level position : nat) : outcome R :=
  l <- vec_get (b_levels b) level ;; bl_eval l x position.
Definition b_evaluateDerivative (b : basis) (x : R) (level position : nat) : outcome R :=
  l <- vec_get (b_levels b) level ;; bl_deriv l x position.
Definition b_evaluateSecondDerivative (b : basis) (x : R) (level position : nat) : outcome R :=
  l <- vec_get (b_levels b) level ;; bl_deriv2 l x position.
Definition b_getKnot (b : basis) (level position : nat) : outcome R :=
  l <- vec_get (b_levels b) level ;; bl_knot l position.

(** getGridPointInDirection, src/Point.cpp:38-41. *)
Definition getGridPointInDirection (p : point) (direction : nat) (b : basis) : outcome R :=
  lev <- vec_get (p_levels p) direction ;;
  pos <- vec_get (p_positions p) direction ;;
  b_getKnot b lev pos.

(** getGridPoint, src/Point.cpp:43-50. *)
Definition getGridPoint (p : point) (b : basis) : outcome (list R) :=
  mapM (fun t => getGridPointInDirection p t b) (seq 0 (length (p_levels p))).

(** computeBasis, src/Point.cpp:52-59. *)
Definition computeBasis (p : point) (x : list R) (b : basis) : outcome R :=
  foldM (fun ret t =>
    xt <- vec_get x t ;; lev <- vec_get (p_levels p) t ;; pos <- vec_get (p_positions p) t ;;
    e <- b_evaluate b xt lev pos ;; Ok (ret * e))
  (seq 0 (length (p_levels p))) 1.

(** computeBasisDerivative, src/Point.cpp:61-79. *)
Definition computeBasisDerivative (p : point) (x : list R) (b : basis) : outcome (list R) :=
  let d := length (p_levels p) in
  foldM (fun ret t =>
    xt <- vec_get x t ;; lev <- vec_get (p_levels p) t ;; pos <- vec_get (p_positions p) t ;;
    basisValue <- b_evaluate b xt lev pos ;;
    basisDerivative <- b_evaluateDerivative b xt lev pos ;;
    Ok (map (fun q => if Nat.eqb (fst q) t then snd q * basisDerivative else snd q * basisValue)
            (combine (seq 0 d) ret)))
  (seq 0 d) (repeat 1 d).

(** computeBasisSecondDerivative, src/Point.cpp:81-111.  Only the lower triangle is
    computed; selfadjointView<Lower> makes it symmetric. *)
Definition computeBasisSecondDerivative (p : point) (x : list R) (b : basis)
  : outcome (list (list R)) :=
  let d := length (p_levels p) in
  lower <- foldM (fun ret t =>
    xt <- vec_get x t ;; lev <- vec_get (p_levels p) t ;; pos <- vec_get (p_positions p) t ;;
    basisValue <- b_evaluate b xt lev pos ;;
    basisDerivative <- b_evaluateDerivative b xt lev pos ;;
    basisSecondDerivative <- b_evaluateSecondDerivative b xt lev pos ;;
    Ok (map (fun row => let r := fst row in
          map (fun e => let s := fst e in
            if s <? r + 1 then
              if Nat.eqb r t then
                if Nat.eqb s t then snd e * basisSecondDerivative else snd e * basisDerivative
              else if Nat.eqb s t then snd e * basisDerivative else snd e * basisValue
            else snd e)
          (combine (seq 0 d) (snd row)))
        (combine (seq 0 d) ret)))
  (seq 0 d) (repeat (repeat 1 d) d) ;;
  Ok (map (fun r => map (fun s => nth (Nat.min r s) (nth (Nat.max r s) lower []) 0) (seq 0 d)) (seq 0 d)).

(** Members, inst/include/SparseGrid.h:30-33.  [sg_bound] is None while bound_ is
    uninitialised. *)
Record sgrid := mkGrid {
  sg_k : nat; sg_d : nat; sg_coefficients : list R; sg_bound : option R
}.
Definition size (g : sgrid) : nat := length (sg_coefficients g).

(** SparseGrid(int, const Basis&), src/SparseGrid.cpp:6-9. *)
Definition grid_new (d : nat) (b : basis) : sgrid :=
  mkGrid (b_levelMax b) d (repeat 0 (findNumGridPoints d (b_levelMax b))) None.

(** initializeStorage, src/SparseGrid.cpp:83-97; state: coefficients, maximum, point. *)
Definition storage_step (f : list R -> R) (b : basis) (n : nat)
    (s : list R * option R * point) (i : nat) : outcome (list R * option R * point) :=
  let '(cs, m, p) := s in
  gridPoint <- getGridPoint p b ;;
  _ <- vec_at cs i ;;
  let cs := upd cs i (f gridPoint) in
  value <- vec_at cs i ;;
  m' <- (if Nat.eqb i 0 then Ok (Some value)
         else match m with
              | None => UB
              | Some mx => if Rlt_dec mx value then Ok (Some value) else Ok (Some mx)
              end) ;;
  p' <- (if i <? n - 1 then advance p else Ok p) ;;
  Ok (cs, m', p').
Definition initializeStorage (f : list R -> R) (b : basis) (g : sgrid) : outcome sgrid :=
  s <- foldM (storage_step f b (size g)) (seq 0 (size g)) (sg_coefficients g, None, point_new (sg_d g)) ;;
  Ok (mkGrid (sg_k g) (sg_d g) (fst (fst s)) (snd (fst s))).

(** The parents visited by the while loop of hierarchize, src/SparseGrid.cpp:105-111;
    which they are does not depend on the coefficients. *)
Fixpoint parents_loop (fuel level : nat) (t : nat) (parent : point) : outcome (list point) :=
  lev <- getLevel parent t ;;
  if lev <? level then
    match fuel with
    | O => NoFuel
    | S fuel' =>
        parent' <- advanceInDirection parent t ;;
        rest <- parents_loop fuel' level t parent' ;;
        Ok (parent :: rest)
    end
  else Ok [].
Definition parents (p : point) (t : nat) : outcome (list point) :=
  parent <- firstParent p t ;;
  level <- getLevel p t ;;
  parents_loop (2 ^ level) level t parent.

(** Body of that loop: coefficients_.at(i) -= contribution. *)
Definition subtract_step (b : basis) (t : nat) (knot : R) (i : nat) (cs : list R) (parent : point)
  : outcome (list R) :=
  c <- (if (p_index parent <? 0)%Z then Throw OutOfRange else vec_at cs (Z.to_nat (p_index parent))) ;;
  lev <- getLevel parent t ;;
  pos <- getPosition parent t ;;
  e <- b_evaluate b knot lev pos ;;
  ci <- vec_at cs i ;;
  Ok (upd cs i (ci - c * e)).

(** Inner loop of hierarchize, src/SparseGrid.cpp:103-113. *)
Definition hier_step (b : basis) (t : nat) (s : list R * point) (i : nat) : outcome (list R * point) :=
  let '(cs, p) := s in
  knot <- getGridPointInDirection p t b ;;
  ps <- parents p t ;;
  cs' <- foldM (subtract_step b t knot i) ps cs ;;
  p' <- advance p ;;
  Ok (cs', p').
Definition hier_pass (b : basis) (d : nat) (cs : list R) (t : nat) : outcome (list R) :=
  s <- foldM (hier_step b t) (seq 0 (length cs)) (cs, point_new d) ;; Ok (fst s).

(** hierarchize, src/SparseGrid.cpp:99-115. *)
Definition hierarchize (b : basis) (g : sgrid) : outcome sgrid :=
  cs <- foldM (hier_pass b (sg_d g)) (seq 0 (sg_d g)) (sg_coefficients g) ;;
  Ok (mkGrid (sg_k g) (sg_d g) cs (sg_bound g)).

(** initialize, src/SparseGrid.cpp:25-29, on a grid made by src/SparseGrid.cpp:18-23. *)
Definition grid_of (f : list R -> R) (d : nat) (b : basis) : outcome sgrid :=
  g <- initializeStorage f b (grid_new d b) ;; hierarchize b g.

(** The sum of src/SparseGrid.cpp:33-39. *)
Definition interp_step (g : sgrid) (x : list R) (b : basis) (s : R * point) (i : nat) : outcome (R * point) :=
  let '(ret, p) := s in
  c <- vec_get (sg_coefficients g) i ;;
  e <- computeBasis p x b ;;
  p' <- (if i <? size g - 1 then advance p else Ok p) ;;
  Ok (ret + c * e, p').
(** interpolate, src/SparseGrid.cpp:31-41. *)
Definition interpolate (g : sgrid) (x : list R) (b : basis) : outcome R :=
  s <- foldM (interp_step g x b) (seq 0 (size g)) (0, point_new (sg_d g)) ;;
  match sg_bound g with None => UB | Some bound => Ok (Rmin (fst s) bound) end.

(** interpolateDerivative, src/SparseGrid.cpp:43-58. *)
Definition vadd (a b : list R) : list R := map (fun p => fst p + snd p) (combine a b).
Definition interpD_step (g : sgrid) (x : list R) (b : basis) (s : list R * point) (i : nat)
  : outcome (list R * point) :=
  let '(ret, p) := s in
  c <- vec_get (sg_coefficients g) i ;;
  e <- computeBasisDerivative p x b ;;
  p' <- (if i <? size g - 1 then advance p else Ok p) ;;
  Ok (vadd ret (map (Rmult c) e), p').
Definition interpolateDerivative (g : sgrid) (x : list R) (b : basis) : outcome (list R) :=
  v <- interpolate g x b ;;
  match sg_bound g with
  | None => UB
  | Some bound =>
      if Rlt_dec v bound then
        s <- foldM (interpD_step g x b) (seq 0 (size g)) (repeat 0 (sg_d g), point_new (sg_d g)) ;;
        Ok (fst s)
      else Ok (repeat 0 (sg_d g))
  end.

(** interpolateSecondDerivative, src/SparseGrid.cpp:60-75. *)
Definition madd (a b : list (list R)) : list (list R) := map (fun p => vadd (fst p) (snd p)) (combine a b).
Definition interpD2_step (g : sgrid) (x : list R) (b : basis) (s : list (list R) * point) (i : nat)
  : outcome (list (list R) * point) :=
  let '(ret, p) := s in
  c <- vec_get (sg_coefficients g) i ;;
  e <- computeBasisSecondDerivative p x b ;;
  p' <- (if i <? size g - 1 then advance p else Ok p) ;;
  Ok (madd ret (map (map (Rmult c)) e), p').
Definition interpolateSecondDerivative (g : sgrid) (x : list R) (b : basis) : outcome (list (list R)) :=
  v <- interpolate g x b ;;
  match sg_bound g with
  | None => UB
  | Some bound =>
      if Rlt_dec v bound then
        s <- foldM (interpD2_step g x b) (seq 0 (size g))
                   (repeat (repeat 0 (sg_d g)) (sg_d g), point_new (sg_d g)) ;;
        Ok (fst s)
      else Ok (repeat (repeat 0 (sg_d g)) (sg_d g))
  end.
