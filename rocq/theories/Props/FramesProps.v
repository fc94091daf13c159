(** C42, C45: putting model frames together, and the signs of the parameters. *)
From Coq Require Import List Reals ZArith.
From Verif Require Import Model.Base Model.Family Model.GLMM Model.SplitFrame Model.Frames Spec.Numbers Spec.GLMMSpec Spec.SplitSpec Spec.FramesSpec
  Proofs.AttachMain Proofs.SignMain Proofs.FramesCases.
Import ListNotations.
Local Open Scope R_scope.

(** The linear predictor of two frames put together is the sum of their predictors. *)
Theorem C42_sum : forall n m1 m2, proper n m1 -> proper n m2 ->
  exists m, concatenate_frames Rnum m1 m2 = Ok m /\ proper n m /\
  mo_p _ m = (mo_p _ m1 + mo_p _ m2)%nat /\ ntheta m = (ntheta m1 + ntheta m2)%nat /\ nrandom m = (nrandom m1 + nrandom m2)%nat /\
  mo_response _ m = mo_response _ m1 /\ mo_weights _ m = mo_weights _ m1 /\
  forall beta1 beta2 theta1 theta2 u1 u2 k, length beta1 = mo_p _ m1 -> length theta1 = ntheta m1 -> length theta2 = ntheta m2 ->
    length u1 = nrandom m1 -> length u2 = nrandom m2 -> (k < n)%nat ->
    predictor m (beta1 ++ beta2) (theta1 ++ theta2) (u1 ++ u2) k = predictor m1 beta1 theta1 u1 k + predictor m2 beta2 theta2 u2 k.
Proof. exact C42_sum_main. Qed.
Print Assumptions C42_sum.

(** The same for a frame and any number of frames attached to it. *)
Theorem C42_attach : forall n m0 subs, proper n m0 -> subs <> [] -> List.Forall (proper n) subs ->
  exists m, attach_subframes Rnum m0 subs = Ok m /\ proper n m /\ mo_response _ m = mo_response _ m0 /\ mo_weights _ m = mo_weights _ m0 /\
  forall pars k, (k < n)%nat ->
    Forall2 (fun x p => length (fst (fst p)) = mo_p _ x /\ length (snd (fst p)) = ntheta x /\ length (snd p) = nrandom x) (m0 :: subs) pars ->
    predictor m (concat (map (fun p => fst (fst p)) pars)) (concat (map (fun p => snd (fst p)) pars)) (concat (map snd pars)) k =
    fold_right Rplus 0 (map (fun xp => predictor (fst xp) (fst (fst (snd xp))) (snd (fst (snd xp))) (snd (snd xp)) k) (combine (m0 :: subs) pars)).
Proof. exact C42_attach_main. Qed.
Print Assumptions C42_attach.

(** The bounds of the parameters of the second frame are lost. *)
Theorem C42_bounds_lost : forall n m1 m2 r1 r2 m, proper n m1 -> proper n m2 -> mo_re _ m1 = Some r1 -> mo_re _ m2 = Some r2 ->
  bounds_fit r1 -> rt_theta _ r2 <> [] -> concatenate_frames Rnum m1 m2 = Ok m ->
  exists r, mo_re _ m = Some r /\ rt_theta _ r = rt_theta _ r1 ++ rt_theta _ r2 /\ rt_lower _ r = rt_lower _ r1 /\
    (length (rt_lower _ r) < length (rt_theta _ r))%nat.
Proof. exact C42_bounds_main. Qed.
Print Assumptions C42_bounds_lost.

Example C42_case : proper 2 case_m1 /\ proper 2 case_m2 /\ bounds_fit case_r1 /\ bounds_fit case_r2 /\
  mo_re _ case_m1 = Some case_r1 /\ mo_re _ case_m2 = Some case_r2 /\ rt_theta _ case_r2 <> [].
Proof. refine (conj case_p1 (conj case_p2 (conj case_b1 (conj case_b2 (conj eq_refl (conj eq_refl _)))))). discriminate. Qed.

(** What glmm reports instead of the estimates found is as good: the joint density of
    observations and random effects is the same up to the signs of the latter, and so are
    the covariances and the integral. *)
Theorem C45_signs : forall n m r theta beta, proper n m -> mo_re _ m = Some r -> bounds_fit r -> length theta = ntheta m ->
  exists theta', report_estim Rnum (rt_lower _ r) (ntheta m) (theta ++ beta) = theta' ++ beta /\ length theta' = ntheta m /\
  ((forall b, In b (rt_lower _ r) -> b = Zero) -> List.Forall (fun t => 0 <= t) theta') /\
  (exists s, length s = nrandom m /\ List.Forall sign s /\
    forall density u, length u = nrandom m -> joint n density m beta theta' u = joint n density m beta theta (flip s u)) /\
  (forall k l, (k < n)%nat -> (l < n)%nat -> covariance m theta' k l = covariance m theta k l) /\
  forall density a, cube (nrandom m) a (joint n density m beta theta') = cube (nrandom m) a (joint n density m beta theta).
Proof. exact C45_signs_main. Qed.
Print Assumptions C45_signs.

(** Not so for frames put together. *)
Theorem C45_attached_refuted : exists n m1 m2 r1 r2 m r theta beta theta',
  proper n m1 /\ proper n m2 /\ mo_re _ m1 = Some r1 /\ mo_re _ m2 = Some r2 /\ bounds_fit r1 /\ bounds_fit r2 /\
  concatenate_frames Rnum m1 m2 = Ok m /\ mo_re _ m = Some r /\ length theta = ntheta m /\ length beta = mo_p _ m /\
  report_estim Rnum (rt_lower _ r) (ntheta m) (theta ++ beta) = theta' ++ beta /\ length theta' = ntheta m /\
  exists k, (k < n)%nat /\ covariance m theta' k k <> covariance m theta k k.
Proof. exact C45_attached_main. Qed.
Print Assumptions C45_attached_refuted.

Example C45_case : proper 2 case_m1 /\ mo_re _ case_m1 = Some case_r1 /\ bounds_fit case_r1 /\ length [-1] = ntheta case_m1 /\
  (forall b, In b (rt_lower _ case_r1) -> b = Zero) /\ proper 2 case_m2 /\ bounds_fit case_r2.
Proof.
  refine (conj case_p1 (conj eq_refl (conj case_b1 (conj eq_refl (conj _ (conj case_p2 case_b2)))))).
  intros b [H|H]; [exact (eq_sym H)|destruct H].
Qed.
