(** C36: the parameters of a calibration. *)
From Coq Require Import String List ZArith Reals Lia.
From Verif Require Import Model.Base Model.Family Model.SparseGrid Model.Vectors Model.BasisLevel Model.Quadrature Model.Params
  Spec.ParamsSpec Spec.SplineSpec Spec.MatrixSpec Proofs.QuantileMain Proofs.BasisMain Proofs.ParamsMain.
Import ListNotations.

(** After any assignments, some of which may have failed, each setting has the last
    value that was accepted, and the basis and the rule are those of the last
    numbers. *)
Theorem C36_last_set : forall q inverse solve es, is_normal_quantile q -> (forall d A, inverts inverse d A) -> solves_systems solve ->
  (forall n, (1 <= n)%nat -> length (fst (es (findHermiteJacobi n))) = n) ->
  forall cs, List.Forall in_range cs -> exists p0 p,
  makeParametersR q inverse solve es = (p0, Ok tt) /\ session q inverse solve es p0 cs = Ok (map accepted cs, p) /\
  pa_theta p = last_set theta_of [] cs /\ pa_beta p = last_set beta_of [] cs /\
  getParametersFamily p = Ok (last_set family_of "binomial"%string cs) /\ getParametersLink p = Ok (last_set link_of "logit"%string cs) /\
  getParametersNSparseLevels p = Ok (last_set levels_of 1%Z cs) /\ getParametersNQuadraturePoints p = Ok (last_set points_of 1%Z cs) /\
  pa_rule p = rule_initialize es (Z.to_nat (last_set points_of 1%Z cs)) /\
  ((0 <= last_set levels_of 1 cs)%Z -> basis_new q inverse solve (Z.to_nat (last_set levels_of 1%Z cs)) =
     Ok (mkBasis (pa_levels p) (Z.to_nat (last_set levels_of 1%Z cs)))).
Proof. exact C36_main. Qed.

(** An assignment that throws changes nothing. *)
Theorem C36_unchanged : forall q inverse solve es p c p' e, assign q inverse solve es p c = (p', Throw e) -> p' = p.
Proof. exact C36_unchanged_main. Qed.

(** Zero levels or less than one quadrature point are undefined. *)
Theorem C36_zero_undefined : forall q inverse solve es p n,
  snd (assign q inverse solve es p (SetSparseLevels 0)) = UB /\
  ((n < 1)%Z -> snd (assign q inverse solve es p (SetQuadraturePoints n)) = UB).
Proof. exact C36_zero_main. Qed.

Example C36_case : exists p, exists p0, makeParametersR quantile some_inverse some_solve (fun A => (map (fun _ => 0%R) A, A)) = (p0, Ok tt) /\
  session quantile some_inverse some_solve (fun A => (map (fun _ => 0%R) A, A)) p0 some_history =
    Ok ([true; true; false; false; true; true; true; true], p) /\
  getParametersLink p = Ok "probit"%string /\ getParametersFamily p = Ok "binomial"%string /\
  getParametersNSparseLevels p = Ok 3%Z /\ getParametersNQuadraturePoints p = Ok 15%Z /\ pa_theta p = [1%R].
Proof.
  destruct (C36_last_set quantile some_inverse some_solve (fun A => (map (fun _ => 0%R) A, A)) quantile_normal some_inverse_inverts some_solve_solves)
    with (cs := some_history) as (p0 & p & E & S & T & _ & F & L & N & M & _).
  - intros n Hn. cbn [fst]. rewrite map_length. unfold findHermiteJacobi. now rewrite map_length, seq_length.
  - unfold some_history. repeat constructor; unfold in_range; lia.
  - exists p, p0. split; [exact E|]. split; [exact S|]. split; [exact L|]. split; [exact F|]. split; [exact N|]. split; [exact M|exact T].
Qed.

Print Assumptions C36_last_set.
Print Assumptions C36_unchanged.
Print Assumptions C36_zero_undefined.
