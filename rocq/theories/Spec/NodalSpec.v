(** One-dimensional hierarchical bases. *)
From Coq Require Import List Arith Reals.
From Coquelicot Require Import Coquelicot.
From Verif Require Import Model.Base Model.SparseGrid.
Import ListNotations.
Local Open Scope R_scope.

(** Levels 0..k are there: at positions below 2^level, knots and evaluation in the
    domain [D], which has all knots in it, succeed. *)
Record total_basis (b : basis) (k : nat) (D : R -> Prop) (x : nat -> nat -> R) (phi : nat -> nat -> R -> R) : Prop := {
  tb_max : b_levelMax b = k;
  tb_knot : forall l j, (l <= k)%nat -> (j < 2 ^ l)%nat -> b_getKnot b l j = Ok (x l j);
  tb_domain : forall l j, (l <= k)%nat -> (j < 2 ^ l)%nat -> D (x l j);
  tb_eval : forall l j y, (l <= k)%nat -> (j < 2 ^ l)%nat -> D y -> b_evaluate b y l j = Ok (phi l j y)
}.

(** A function of level l is 1 at its own knot and 0 at all other knots of level
    at most l. *)
Definition nodal (k : nat) (x : nat -> nat -> R) (phi : nat -> nat -> R -> R) : Prop :=
  forall l j l' j', (l <= k)%nat -> (j < 2 ^ l)%nat -> (l' <= l)%nat -> (j' < 2 ^ l')%nat ->
  phi l j (x l' j') = if (Nat.eqb l' l && Nat.eqb j' j)%bool then 1 else 0.

(** The place of a grid point. *)
Definition place (x : nat -> nat -> R) (levels positions : list nat) : list R :=
  map (fun c => x (fst c) (snd c)) (combine levels positions).

(** Products of basis functions, and their linear combinations. *)
Definition product (phi : nat -> nat -> R -> R) (levels positions : list nat) (y : list R) : R :=
  fold_right Rmult 1 (map (fun c => phi (fst (fst c)) (snd (fst c)) (snd c)) (combine (combine levels positions) y)).
Definition combination (phi : nat -> nat -> R -> R) (terms : list (R * (list nat * list nat))) (y : list R) : R :=
  fold_right Rplus 0 (map (fun t => fst t * product phi (fst (snd t)) (snd (snd t)) y) terms).

(** Hat functions on [0,1]: knot j of level l is (2j+1)/2^(l+1); level 0 is constant. *)
Definition hat_x (l j : nat) : R := (2 * INR j + 1) / 2 ^ (l + 1).
Definition hat_phi (l j : nat) (y : R) : R :=
  match l with
  | O => 1
  | _ => Rmax 0 (1 - Rabs (y - hat_x l j) * 2 ^ (l + 1))
  end.
Definition hat_basis (k : nat) : basis :=
  mkBasis (map (fun l => mkLevel (fun j => Ok (hat_x l j)) (fun y j => Ok (hat_phi l j y))
                          (fun _ _ => Ok 0) (fun _ _ => Ok 0)) (seq 0 (k + 1))) k.

(** The derivatives of a basis are the derivatives of its functions, which are twice
    continuously differentiable. *)
Record smooth_basis (b : basis) (k : nat) (D : R -> Prop) (phi phi1 phi2 : nat -> nat -> R -> R) : Prop := {
  sb_deriv : forall l j y, (l <= k)%nat -> (j < 2 ^ l)%nat -> D y ->
    b_evaluate b y l j = Ok (phi l j y) /\ b_evaluateDerivative b y l j = Ok (phi1 l j y) /\
    b_evaluateSecondDerivative b y l j = Ok (phi2 l j y);
  sb_first : forall l j y, (l <= k)%nat -> (j < 2 ^ l)%nat -> is_derive (phi l j) y (phi1 l j y);
  sb_second : forall l j y, (l <= k)%nat -> (j < 2 ^ l)%nat -> is_derive (phi1 l j) y (phi2 l j y);
  sb_continuous : forall l j y, (l <= k)%nat -> (j < 2 ^ l)%nat -> continuity_pt (phi2 l j) y
}.
