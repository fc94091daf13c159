(** C32-C34, C48. *)
From Coq Require Import List Arith Reals Lra Lia.
From Verif Require Import Model.Base Model.SparseGrid Model.Vectors Model.BasisLevel Spec.GridSpec Spec.NodalSpec Spec.MatrixSpec
  Spec.SplineSpec Proofs.QuantileMain Proofs.LevelMain Proofs.BasisMain.
Import ListNotations.
Local Open Scope R_scope.

(** * C32 *)
(** The conditions on quantiles below hold for the standard normal distribution. *)
Theorem C32_normal : forall q L, is_normal_quantile q ->
  normal_like q /\ ((1 <= L <= 25)%nat -> knots_fit q L).
Proof. intros q L H. split; [now apply normal_quantile_like|now apply normal_quantile_fit]. Qed.

Theorem C32_knots : forall q L l, normal_like q -> knots_fit q L -> (1 <= L)%nat -> (l <= L)%nat ->
  exists ks, findKnotsTotal q l L = Ok ks /\ length ks = (2 ^ (l + 1) - 1)%nat /\ strictly_increasing ks /\
    (forall i, (i < length ks)%nat ->
       Rabs (nth i ks 0 - (1 + INR L / 2) * q (INR (i + 1) / 2 ^ (l + 1))) < (1 + INR L / 2) * q (1 / 2 + / 2 ^ (L + 1)) / 10) /\
    find_knots q l L = Ok (map (fun j => nth (2 * j) ks 0) (seq 0 (2 ^ l))).
Proof. exact C32_knots_main. Qed.

Theorem C32_interval : forall q inverse solve L l b ks x,
  normal_like q -> knots_fit q L -> (1 <= L)%nat -> (l <= L)%nat ->
  level_new q inverse solve l L = Ok b -> findKnotsTotal q l L = Ok ks ->
  (x <= nth 0 ks 0 -> findIntervalId b x = Ok 0%nat) /\
  (nth 0 ks 0 < x -> x - nth 0 ks 0 < 2 ^ 32 * bandwidth q L -> findIntervalId b x = Ok (count_upto ks x)) /\
  (2 ^ 32 * bandwidth q L <= x - nth 0 ks 0 -> findIntervalId b x = UB).
Proof. exact C32_interval_main. Qed.

(** There are normal quantiles, routines for inverting matrices and for solving
    equations, so that levels are built. *)
Example C32_case : is_normal_quantile quantile /\ (forall d A, inverts some_inverse d A) /\ solves_systems some_solve /\
  exists b, level_new quantile some_inverse some_solve 2 3 = Ok b.
Proof.
  split; [exact quantile_normal|]. split; [exact some_inverse_inverts|]. split; [exact some_solve_solves|].
  pose proof (normal_quantile_like _ quantile_normal) as NL.
  destruct (level_ok quantile NL 3 ltac:(lia) (normal_quantile_fit _ 3 quantile_normal ltac:(lia)) some_inverse some_solve
    (some_inverse_inverts 3) (some_inverse_inverts 4) some_solve_solves 2 ltac:(lia)) as (b & E & _). eauto.
Qed.

(** * C33 *)
Theorem C33_nodal : forall q inverse solve L, normal_like q -> knots_fit q L -> (1 <= L)%nat ->
  (forall d A, inverts inverse d A) -> solves_systems solve ->
  exists b x phi, basis_new q inverse solve L = Ok b /\
    total_basis b L (fun y => y - x L 0%nat < 2 ^ 32 * bandwidth q L) x phi /\ nodal L x phi.
Proof.
  intros q inverse solve L NL Fit HL Inv Sol.
  destruct (C33_main q NL L HL Fit inverse solve (Inv 3%nat) (Inv 4%nat) Sol) as (b & x & phi & p1 & p2 & H1 & H2 & H3 & _).
  exists b, x, phi. auto.
Qed.

(** With C16: sparse grids over this basis interpolate. *)
Theorem C33_sparse_grid : forall q inverse solve L, is_normal_quantile q -> (1 <= L <= 25)%nat ->
  (forall d A, inverts inverse d A) -> solves_systems solve ->
  exists b x, basis_new q inverse solve L = Ok b /\
    (forall l j, (l <= L)%nat -> (j < 2 ^ l)%nat -> b_getKnot b l j = Ok (x l j) /\
       Rabs (x l j - (1 + INR L / 2) * q (INR (2 * j + 1) / 2 ^ (l + 1))) < (1 + INR L / 2) * q (1 / 2 + / 2 ^ (L + 1)) / 10) /\
    forall d f, exists g, grid_of f d b = Ok g /\
      forall ls ps, grid_point d L ls ps -> interpolate g (place x ls ps) b = Ok (f (place x ls ps)).
Proof. exact C33_grid_main. Qed.

Example C33_case : exists b x, basis_new quantile some_inverse some_solve 2 = Ok b /\
  exists g, grid_of (fun y => nth 0 y 0 * exp (nth 1 y 0)) 2 b = Ok g /\
  interpolate g [x 1 1; x 1 0]%nat b = Ok (x 1%nat 1%nat * exp (x 1%nat 0%nat)).
Proof.
  destruct (C33_sparse_grid quantile some_inverse some_solve 2 quantile_normal ltac:(lia) some_inverse_inverts some_solve_solves)
    as (b & x & E & _ & H). exists b, x. split; [exact E|].
  destruct (H 2%nat (fun y => nth 0 y 0 * exp (nth 1 y 0))) as (g & Eg & I). exists g. split; [exact Eg|].
  apply (I [1; 1]%nat [1; 0]%nat). repeat split; simpl; try lia. repeat constructor; simpl; lia.
Qed.

(** * C34 *)
(** levelMax = 0 is accepted and undefined, whatever the routines do. *)
Theorem C34_zero_undefined : forall q inverse solve, basis_new q inverse solve 0 = UB.
Proof. exact C34_zero_main. Qed.

Theorem C34_defined : forall q L l, is_normal_quantile q -> (1 <= L <= 25)%nat -> (l <= L)%nat ->
  exists k1 k2 k3, find_knots q l L = Ok k1 /\ find_gridIds q l L = Ok k2 /\ findKnotsTotal q l L = Ok k3.
Proof. exact C34_defined_main. Qed.

(** From 27 on the last level cannot be built. *)
Theorem C34_large_undefined : forall q inverse solve L, is_normal_quantile q -> (27 <= L)%nat ->
  level_new q inverse solve L L = UB.
Proof. exact C34_large_main. Qed.

Example C34_case : is_normal_quantile quantile.
Proof. exact quantile_normal. Qed.

(** * C48 *)
Theorem C48_smooth : forall q inverse solve L, normal_like q -> knots_fit q L -> (1 <= L)%nat ->
  (forall d A, inverts inverse d A) -> solves_systems solve ->
  exists b x phi phi1 phi2, basis_new q inverse solve L = Ok b /\
    total_basis b L (fun y => y - x L 0%nat < 2 ^ 32 * bandwidth q L) x phi /\
    smooth_basis b L (fun y => y - x L 0%nat < 2 ^ 32 * bandwidth q L) phi phi1 phi2.
Proof.
  intros q inverse solve L NL Fit HL Inv Sol.
  destruct (C33_main q NL L HL Fit inverse solve (Inv 3%nat) (Inv 4%nat) Sol) as (b & x & phi & p1 & p2 & H1 & H2 & H3 & H4).
  exists b, x, phi, p1, p2. auto.
Qed.

Example C48_case : exists b x phi phi1 phi2, basis_new quantile some_inverse some_solve 25 = Ok b /\
  total_basis b 25 (fun y => y - x 25%nat 0%nat < 2 ^ 32 * bandwidth quantile 25) x phi /\
  smooth_basis b 25 (fun y => y - x 25%nat 0%nat < 2 ^ 32 * bandwidth quantile 25) phi phi1 phi2.
Proof.
  apply C48_smooth; [apply normal_quantile_like, quantile_normal|apply normal_quantile_fit; [apply quantile_normal|lia]|lia|
    exact some_inverse_inverts|exact some_solve_solves].
Qed.

Print Assumptions C32_normal.
Print Assumptions C32_knots.
Print Assumptions C32_interval.
Print Assumptions C33_nodal.
Print Assumptions C33_sparse_grid.
Print Assumptions C34_zero_undefined.
Print Assumptions C34_defined.
Print Assumptions C34_large_undefined.
Print Assumptions C48_smooth.
