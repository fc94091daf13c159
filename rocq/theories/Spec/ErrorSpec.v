(** Inexact one-variable integration. *)
From Coq Require Import List ZArith Bool Reals.
From Verif Require Import Model.Base Model.Vectors Model.Mixed Model.MultiNormal Model.NormalSig Spec.BeliefSpec Spec.IntegralSpec Spec.Toy.
Import ListNotations.

(** [near k a b]: a differs from b by at most the error of k integrations. *)
Record near_integral (S : sig) (near : nat -> D S -> D S -> Prop) (LI : (D S -> D S) -> D S) : Prop := {
  ni_refl : forall a, near 0 a a;
  ni_trans : forall i j a b c, near i a b -> near j b c -> near (i + j) a c;
  ni_add : forall k a b c, near k a b -> near k (dadd S c a) (dadd S c b);
  ni_ext : forall f g, (forall u, f u = g u) -> LI f = LI g;
  ni_shift : forall c f, LI (fun u => dadd S c (f u)) = dadd S c (LI f);
  ni_close : forall k f g, (forall u, near k (f u) (g u)) -> near k (LI f) (LI g);
  ni_scope : forall f d d2 k n items b, b_integral S f d d2 k n items = Ok b -> bscope S b = items;
  ni_value : forall f d d2 k n items b, b_integral S f d d2 k n items = Ok b ->
    forall x g, length x = length items -> (k <= length items)%nat ->
      (forall u, f (put S u k x) = Ok (g u)) -> near 1 (beval S b x) (LI g)
}.

Local Open Scope R_scope.

(** The logarithm of a positive linear functional of exp o f. *)
Record log_integral (LI : (R -> R) -> R) : Prop := {
  li_mono : forall f g, (forall u, f u <= g u) -> LI f <= LI g;
  li_shift : forall c f, LI (fun u => c + f u) = c + LI f
}.

(** Whenever an integral is stored, the error of the stored values is between lo and hi. *)
Definition stores_within {T : Type} (scope : T -> list Z) (eval : T -> rvec -> R)
    (integral : (rvec -> outcome R) -> (rvec -> outcome rvec) -> (rvec -> outcome rmat) -> nat -> mnormal -> list Z -> outcome T)
    (LI : (R -> R) -> R) (lo hi : R) : Prop :=
  forall f d d2 k n items b, integral f d d2 k n items = Ok b ->
  scope b = items /\
  forall x g, length x = length items -> (k <= length items)%nat ->
    (forall u, f (insert_at u k x) = Ok (g u)) -> lo <= eval b x - LI g <= hi.
