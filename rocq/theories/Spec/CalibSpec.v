(** What it means for a stored belief to be a marginal of the product of the
    factors, and which sequences of operations keep the calibrated flag honest. *)
From Coq Require Import List ZArith Bool.
From Verif Require Import Model.Base Model.Mixed Model.ClusterGraph Spec.BeliefSpec
  Spec.IntegralSpec Spec.MessageSpec.
Import ListNotations.

Section C.
Context {S : sig}.
Variable LI : (D S -> D S) -> D S.

(** Integrating all the items outside [its] out of the product of the factors,
    in any order, gives the value [v w]. *)
Definition is_marginal (fs : list (B S)) (its : list Z) (v : (Z -> D S) -> D S) : Prop :=
  forall order, NoDup order ->
    (forall x, In x order <-> (exists f, In f fs /\ In x (bscope S f)) /\ ~ In x its) ->
    forall w, v w = iterated S LI order (fun w => dsumS S (map (fval S w) fs)) w.

(** The log-value of the belief can be computed and is the marginal on its items. *)
Definition holds_marginal (fs : list (B S)) (m : mixed S) : Prop :=
  exists v, (forall w, lval w m = Ok (v w)) /\ is_marginal fs (m_items m) v.
End C.

(** No message between normal approximations only, once a calibration has been
    asked for. *)
Fixpoint no_reset {S : sig} (calibrated : bool) (ops : list (@op S)) : bool :=
  match ops with
  | [] => true
  | o :: ops' =>
      match o with
      | OpPass _ _ true | OpSetNormal _ _ => negb calibrated && no_reset calibrated ops'
      | OpCalibrate | OpMargin _ => no_reset true ops'
      | _ => no_reset calibrated ops'
      end
  end.
