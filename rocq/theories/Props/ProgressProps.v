(** C88: what is written while a model is fitted. *)
From Coq Require Import List ZArith Reals.
From Verif Require Import Model.Base Model.Fit Model.Environment Model.Progress Spec.FitSpec Spec.EnvironmentSpec Spec.ProgressSpec Proofs.ProgressMain Proofs.ProgressCases.
Import ListNotations.
Local Open Scope R_scope.

(** The estimate and its variance, or the error, do not depend on verbose or on the time an
    evaluation takes; they are those of optimize_glmm without any output. *)
Theorem C88_result : forall optim solve lfun p_beta p_theta prev verbose t0,
  fst (optimize_glmm_progress optim solve lfun p_beta p_theta prev verbose t0) =
  optimize_glmm (fun f x => answers f (optim x)) solve lfun p_beta p_theta prev.
Proof. exact C88_result_main. Qed.
Print Assumptions C88_result.

(** With verbose = 0 nothing is written, also if there is an error. *)
Theorem C88_quiet : forall optim solve lfun p_beta p_theta prev verbose t0, (verbose <= 0)%Z ->
  snd (optimize_glmm_progress optim solve lfun p_beta p_theta prev verbose t0) = [].
Proof. exact C88_quiet_main. Qed.
Print Assumptions C88_quiet.

(** With verbose = 2 there is one line for each evaluation that optim asks for, in that order,
    and for no other: the parameters, not their difference to the start, and the
    loglikelihood that is used for them. *)
Theorem C88_trace : forall optim solve lfun p_beta p_theta prev start l0 t0,
  start = match prev with Some x => x | None => (repeat (1 / 2) p_theta ++ repeat 0 p_beta)%list end -> length start = (p_theta + p_beta)%nat -> (1 <= p_theta)%nat ->
  (forall x, defined (lfun x)) -> asks_length (p_theta + p_beta) (optim (repeat 0 (p_theta + p_beta))) -> in_box p_theta start -> lfun start = Ok l0 ->
  snd (optimize_glmm_progress optim solve lfun p_beta p_theta prev 2 t0) =
  (opening t0 ++ [EndLine] ++ map (fun y => Values y (used_loglikelihood lfun p_theta l0 y)) (points optim lfun p_theta start l0) ++
   closing optim lfun p_theta start l0)%list.
Proof. exact C88_trace_main. Qed.
Print Assumptions C88_trace.

(** With verbose = 1 there are dots, one for G + 1 evaluations, where G evaluations take at
    most a second and G + 1 take more; the two evaluations before optim may count.  There is
    none if the time measured for an evaluation is 0. *)
Theorem C88_dots : forall optim solve lfun p_beta p_theta prev start l0 t0,
  start = match prev with Some x => x | None => (repeat (1 / 2) p_theta ++ repeat 0 p_beta)%list end -> length start = (p_theta + p_beta)%nat -> (1 <= p_theta)%nat ->
  (forall x, defined (lfun x)) -> asks_length (p_theta + p_beta) (optim (repeat 0 (p_theta + p_beta))) -> in_box p_theta start -> lfun start = Ok l0 ->
  exists d, snd (optimize_glmm_progress optim solve lfun p_beta p_theta prev 1 t0) = (opening t0 ++ repeat Dot d ++ closing optim lfun p_theta start l0)%list /\
  let n := length (points optim lfun p_theta start l0) in
  (t0 = 0 -> d = 0%nat) /\
  (forall G, 0 < t0 -> INR G <= 1 / t0 < INR G + 1 -> (d * (G + 1) <= n + 2)%nat /\ (n < (d + 1) * (G + 1))%nat).
Proof. exact C88_dots_main. Qed.
Print Assumptions C88_dots.

(** With a larger verbose there is neither. *)
Theorem C88_more : forall optim solve lfun p_beta p_theta prev start l0 t0,
  start = match prev with Some x => x | None => (repeat (1 / 2) p_theta ++ repeat 0 p_beta)%list end -> length start = (p_theta + p_beta)%nat -> (1 <= p_theta)%nat ->
  (forall x, defined (lfun x)) -> asks_length (p_theta + p_beta) (optim (repeat 0 (p_theta + p_beta))) -> in_box p_theta start -> lfun start = Ok l0 ->
  forall verbose, (2 < verbose)%Z ->
  snd (optimize_glmm_progress optim solve lfun p_beta p_theta prev verbose t0) = (opening t0 ++ closing optim lfun p_theta start l0)%list.
Proof. exact C88_more_main. Qed.
Print Assumptions C88_more.

(** Evaluations at the start, outside of the box and where there is an error, half a second
    each. *)
Example C88_case : (forall x, defined (partly x)) /\ asks_length 2 (three_asks (repeat 0 2)) /\ in_box 1 [1 / 2; 0] /\ partly [1 / 2; 0] = Ok (1 / 2) /\
  snd (optimize_glmm_progress three_asks (fun h => Ok h) partly 1 1 None 2 (1 / 2)) =
    [Takes (1 / 2); Fitting; EndLine; Values [1 / 2; 0] (Some (1 / 2)); Values [13 / 2; 0] (Some (- (99 / 2))); Values [3 / 2; 1] None; Finished] /\
  snd (optimize_glmm_progress three_asks (fun h => Ok h) partly 1 1 None 1 (1 / 2)) = [Takes (1 / 2); Fitting; Dot; Finished].
Proof. exact C88_case_main. Qed.
