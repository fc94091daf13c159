(** Exact one-variable integration, abstractly: [LI f] stands for the logarithm
    of a fixed positive linear functional of exp o f. *)
From Coq Require Import List ZArith Bool.
From Verif Require Import Model.Base Model.Mixed Spec.BeliefSpec.
Import ListNotations.

Section I.
Variable S : sig.
Variable LI : (D S -> D S) -> D S.

(** [x] with [u] inserted at position [k]. *)
Fixpoint put (u : D S) (k : nat) (x : list (D S)) : list (D S) :=
  match k, x with
  | O, _ => u :: x
  | Datatypes.S k', y :: x' => y :: put u k' x'
  | Datatypes.S _, [] => [u]
  end.

Record exact_integral : Prop := {
  (* functions equal at every point have the same integral *)
  ei_ext : forall f g, (forall u, f u = g u) -> LI f = LI g;
  (* log of a linear functional: additive constants come out *)
  ei_shift : forall c f, LI (fun u => dadd S c (f u)) = dadd S c (LI f);
  (* the stored belief is on the items it was given *)
  ei_scope : forall f d d2 k n items b,
    b_integral S f d d2 k n items = Ok b -> bscope S b = items;
  (* and reports the integral over the argument in position k *)
  ei_value : forall f d d2 k n items b, b_integral S f d d2 k n items = Ok b ->
    forall x g, length x = length items -> (k <= length items)%nat ->
      (forall u, f (put u k x) = Ok (g u)) -> beval S b x = LI g
}.

(** Assignments and iterated integrals. *)
Definition set_item (w : Z -> D S) (v : Z) (u : D S) : Z -> D S :=
  fun x => if Z.eqb x v then u else w x.
Definition int_out (v : Z) (F : (Z -> D S) -> D S) : (Z -> D S) -> D S :=
  fun w => LI (fun u => F (set_item w v u)).
(** Integrate the items of the list out, head first. *)
Definition iterated (order : list Z) (F : (Z -> D S) -> D S) : (Z -> D S) -> D S :=
  fold_left (fun G v => int_out v G) order F.

(** The order of integration does not matter. *)
Definition fubini : Prop := forall f : D S -> D S -> D S,
  LI (fun u => LI (fun v => f u v)) = LI (fun v => LI (fun u => f u v)).
End I.
