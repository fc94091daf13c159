(** src/GLMMBelief.cpp: the factor contributed by a set of observations.  The
    object keeps products of the last parameters it was called with. *)
From Coq Require Import List ZArith Bool.
From Verif Require Import Model.Base Model.Family.
Import ListNotations.

Section GLMM.
Context (F : num).

(** Dense matrices are lists of rows.  The sparse matrix Lambdat (Eigen's
    default, compressed columns) is its number of rows and, for each column, its
    entries (row, value). *)
Definition vec := list F.
Definition mat := list (list F).
Record sparse := mkSparse { sp_rows : nat; sp_cols : list (list (nat * F)) }.

(** The constant members, inst/include/GLMMBelief.h:31-38. *)
Record glmm_data := mkData {
  gd_items : list Z;
  gd_X : mat;
  gd_numFixed : nat;
  gd_Zt : mat;
  gd_numObs : nat;
  gd_Lambdat : sparse;
  gd_Lind : list Z;
  gd_response : vec;
  gd_weights : vec
}.

(** The members that evaluations change, inst/include/GLMMBelief.h:40-44. *)
Record cache := mkCache {
  c_theta : vec;
  c_beta : vec;
  c_LambdatThetaZt : mat;
  c_XBeta : vec
}.

Definition nsum (l : list F) : F := fold_left (nadd F) l (nZ F 0).

(** Scalar product; sizes are only asserted by Eigen (not with NDEBUG). *)
Definition dot (a b : list F) : outcome F := p <- zip2 (nmul F) a b ;; Ok (nsum p).

(** Product of a dense matrix and a vector. *)
Definition matvec (m : mat) (v : vec) : outcome vec := mapM (fun row => dot row v) m.

(** Column k of a dense matrix. *)
Definition column (m : mat) (k : nat) : outcome vec := mapM (fun row => vec_get row k) m.

(** i.valueRef() = theta(Lind_(index)); index++ for the entries of the
    matrix in storage order, src/GLMMBelief.cpp:82-87.  [theta(i)] and [Lind_(i)]
    are unchecked. *)
Definition theta_at (theta : vec) (Lind : list Z) (index : nat) : outcome F :=
  i <- vec_get Lind index ;;
  if (i <? 0)%Z then UB else vec_get theta (Z.to_nat i).

Fixpoint fill_column (theta : vec) (Lind : list Z) (index : nat) (col : list (nat * F))
  : outcome (list (nat * F)) :=
  match col with
  | [] => Ok []
  | (r, _) :: col' =>
      v <- theta_at theta Lind index ;;
      rest <- fill_column theta Lind (index + 1) col' ;;
      Ok ((r, v) :: rest)
  end.

Fixpoint fill_columns (theta : vec) (Lind : list Z) (index : nat) (cols : list (list (nat * F)))
  : outcome (list (list (nat * F))) :=
  match cols with
  | [] => Ok []
  | col :: cols' =>
      c <- fill_column theta Lind index col ;;
      rest <- fill_columns theta Lind (index + length col) cols' ;;
      Ok (c :: rest)
  end.

(** Entry (r, j) of a sparse matrix: the entries of column j in row r added up
    (there is at most one). *)
Definition sp_entry (s : sparse) (r j : nat) : F :=
  nsum (map snd (filter (fun e => Nat.eqb (fst e) r) (nth j (sp_cols s) []))).

(** LambdatTheta * Zt_, src/GLMMBelief.cpp:88: entry (r, k) is the sum over j of
    LambdatTheta(r, j) Zt(j, k). *)
Definition sp_mul (s : sparse) (m : mat) (ncols : nat) : outcome mat :=
  mapM (fun r =>
    mapM (fun k =>
      col <- column m k ;;
      dot (map (sp_entry s r) (seq 0 (length (sp_cols s)))) col)
    (seq 0 ncols))
  (seq 0 (sp_rows s)).

(** setLambdatThetaZt, src/GLMMBelief.cpp:79-89 (on a copy of Lambdat_). *)
Definition compute_LambdatThetaZt (d : glmm_data) (theta : vec) : outcome mat :=
  cols <- fill_columns theta (gd_Lind d) 0 (sp_cols (gd_Lambdat d)) ;;
  sp_mul (mkSparse (sp_rows (gd_Lambdat d)) cols) (gd_Zt d) (gd_numObs d).

(** XBeta_ = X_ * beta_, src/GLMMBelief.cpp:67 and 76. *)
Definition compute_XBeta (d : glmm_data) (beta : vec) : outcome vec := matvec (gd_X d) beta.

(** initializeParameterDependents, src/GLMMBelief.cpp:71-77, run by the
    constructor (lines 10-23): theta_ has one entry per item. *)
Definition glmm_new (d : glmm_data) : outcome cache :=
  let theta := repeat (nZ F 0) (length (gd_items d)) in
  let beta := repeat (nZ F 0) (gd_numFixed d) in
  m <- compute_LambdatThetaZt d theta ;;
  xb <- compute_XBeta d beta ;;
  Ok (mkCache theta beta m xb).

(** v.size() != w.size() || v != w. *)
Fixpoint vec_eqb (a b : vec) : bool :=
  match a, b with
  | [], [] => true
  | x :: a', y :: b' => neqb F x y && vec_eqb a' b'
  | _, _ => false
  end.

(** setTheta, src/GLMMBelief.cpp:55-61. *)
Definition setTheta (d : glmm_data) (c : cache) (theta : vec) : outcome cache :=
  if vec_eqb theta (c_theta c) then Ok c
  else
    m <- compute_LambdatThetaZt d theta ;;
    Ok (mkCache theta (c_beta c) m (c_XBeta c)).

(** setBeta, src/GLMMBelief.cpp:63-69. *)
Definition setBeta (d : glmm_data) (c : cache) (beta : vec) : outcome cache :=
  if vec_eqb beta (c_beta c) then Ok c
  else
    xb <- compute_XBeta d beta ;;
    Ok (mkCache (c_theta c) beta (c_LambdatThetaZt c) xb).

(** computeLinearPredictor, src/GLMMBelief.cpp:91-94. *)
Definition computeLinearPredictor (d : glmm_data) (c : cache) (x : vec) : outcome vec :=
  zx <- mapM (fun k => col <- column (c_LambdatThetaZt c) k ;; dot col x) (seq 0 (gd_numObs d)) ;;
  zip2 (nadd F) (c_XBeta c) zx.

(** The parts of Parameters a GLMM factor reads, inst/include/Parameters.h. *)
Record params := mkParams { p_theta : vec; p_beta : vec; p_family : family }.

(** Both setters, as every evaluation starts, src/GLMMBelief.cpp:28-29. *)
Definition prepare (d : glmm_data) (c : cache) (p : params) : outcome cache :=
  c1 <- setTheta d c (p_theta p) ;; setBeta d c1 (p_beta p).

(** evaluate, src/GLMMBelief.cpp:25-33: the value and the object afterwards. *)
Definition glmm_evaluate (d : glmm_data) (c : cache) (x : vec) (p : params) : outcome (F * cache) :=
  c' <- prepare d c p ;;
  lp <- computeLinearPredictor d c' x ;;
  v <- evaluate F (p_family p) lp (gd_response d) (gd_weights d) ;;
  Ok (v, c').

(** evaluateDerivative, src/GLMMBelief.cpp:35-43. *)
Definition glmm_evaluateDerivative (d : glmm_data) (c : cache) (x : vec) (p : params)
  : outcome (vec * cache) :=
  c' <- prepare d c p ;;
  lp <- computeLinearPredictor d c' x ;;
  fd <- evaluateDerivative F (p_family p) lp (gd_response d) (gd_weights d) ;;
  v <- matvec (c_LambdatThetaZt c') fd ;;
  Ok (v, c').

(** evaluateSecondDerivative, src/GLMMBelief.cpp:45-53: L diag(f'') L^T. *)
Definition glmm_evaluateSecondDerivative (d : glmm_data) (c : cache) (x : vec) (p : params)
  : outcome (mat * cache) :=
  c' <- prepare d c p ;;
  lp <- computeLinearPredictor d c' x ;;
  fd <- evaluateSecondDerivative F (p_family p) lp (gd_response d) (gd_weights d) ;;
  scaled <- mapM (fun row => zip2 (nmul F) row fd) (c_LambdatThetaZt c') ;;
  v <- mapM (fun row => mapM (dot row) (c_LambdatThetaZt c')) scaled ;;
  Ok (v, c').

End GLMM.
