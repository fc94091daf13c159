(** src/QuadratureRule.cpp, in exact arithmetic. *)
From Coq Require Import List Reals.
From Verif Require Import Model.Base Model.Vectors.
Import ListNotations.
Local Open Scope R_scope.

(** Members, inst/include/QuadratureRule.h. *)
Record rule := mkRule { qr_nodes : list R; qr_weights : list R }.

(** findHermiteJacobi, src/QuadratureRule.cpp:33-43: only the entries below the
    diagonal are set. *)
Definition findHermiteJacobi (n : nat) : rmat :=
  map (fun i => map (fun j => if Nat.eqb i (S j) then sqrt (INR i / 2) else 0) (seq 0 n)) (seq 0 n).

(** initialize, src/QuadratureRule.cpp:22-31.  [es] stands for
    Eigen::SelfAdjointEigenSolver: the eigenvalues and the matrix whose columns
    are the eigenvectors (it reads the lower triangle only). *)
Definition sqrtPi : R := 1772453851 / 1000000000.
Definition rule_initialize (es : rmat -> rvec * rmat) (n : nat) : rule :=
  let hermiteJacobi := findHermiteJacobi n in
  let '(eigenvalues, eigenvectors) := es hermiteJacobi in
  let firstRow := hd [] eigenvectors in
  mkRule eigenvalues (map (fun v => sqrtPi * v * v) firstRow).

(** integrate1D, src/QuadratureRule.cpp:45-60. *)
Definition integrate1D (f : R -> R) (location sigma : R) (r : rule) : R :=
  let scale := sqrt 2 * sigma in
  scale * fold_left (fun ret nw =>
      let node := fst nw in
      let transformedNode := scale * node + location in
      ret + snd nw * f transformedNode * exp (node ^ 2))
    (combine (qr_nodes r) (qr_weights r)) 0.

(** integrate1DVector, src/QuadratureRule.cpp:62-79. *)
Definition integrate1DVector (f : R -> rvec) (d : nat) (location sigma : R) (r : rule) : rvec :=
  let scale := sqrt 2 * sigma in
  vscale scale (fold_left (fun ret nw =>
      let node := fst nw in
      let transformedNode := scale * node + location in
      vadd ret (vscale (snd nw * exp (node ^ 2)) (f transformedNode)))
    (combine (qr_nodes r) (qr_weights r)) (repeat 0 d)).

(** integrate1DMatrix, src/QuadratureRule.cpp:81-98. *)
Definition integrate1DMatrix (f : R -> rmat) (d : nat) (location sigma : R) (r : rule) : rmat :=
  let scale := sqrt 2 * sigma in
  mscale scale (fold_left (fun ret nw =>
      let node := fst nw in
      let transformedNode := scale * node + location in
      madd ret (mscale (snd nw * exp (node ^ 2)) (f transformedNode)))
    (combine (qr_nodes r) (qr_weights r)) (mzero d)).
