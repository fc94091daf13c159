(** When a computation on a cluster graph may fail. *)
From Coq Require Import List ZArith Bool.
From Verif Require Import Model.Base Model.Mixed Spec.BeliefSpec Spec.MixedSpec.
Import ListNotations.

(** The mean of a multivariate normal has the size one expects. *)
Record normal_sizes (S : sig) : Prop := {
  ns_given : forall mean prec, length (mn_mean S (mn_given S mean prec)) = length mean;
  ns_mul : forall a b subset, length (mn_mean S (mn_mul S a b subset)) = length (mn_mean S a);
  ns_div : forall a b subset, length (mn_mean S (mn_div S a b subset)) = length (mn_mean S a);
  ns_marginal : forall a subset, length (mn_mean S (mn_marginal S a subset)) = length subset
}.

(** Integrating one argument out and storing the result works, provided that the
    function and its derivatives can be evaluated at every vector of the right size;
    the stored belief again has derivatives of the right sizes. *)
Definition integrates (S : sig) : Prop :=
  forall f d d2 k n items, NoDup items -> (k <= length items)%nat -> length (mn_mean S n) = Datatypes.S (length items) ->
  (forall x, length x = Datatypes.S (length items) ->
     (exists v, f x = Ok v) /\ (exists g, d x = Ok g /\ length g = length x) /\
     (exists h, d2 x = Ok h /\ length h = length x /\ forall row, In row h -> length row = length x)) ->
  exists b, b_integral S f d d2 k n items = Ok b /\ bscope S b = items /\ shaped S b.
