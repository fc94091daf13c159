(** Integrals over all vectors with d components, as iterated integrals in the
    order in which the items are integrated over. *)
From Coq Require Import List Reals Arith.
From Verif Require Import Spec.HermiteSpec.
Import ListNotations.
Local Open Scope R_scope.

(** The integral of [g] over all vectors with d components exists, as an iterated
    integral with the first component innermost, and is [v]. *)
Fixpoint iterated (d : nat) (g : list R -> R) (v : R) : Prop :=
  match d with
  | O => g [] = v
  | S d' => exists h, (forall x, length x = d' -> integral (fun t => g (t :: x)) (h x)) /\ iterated d' h v
  end.
