(** C19 - C22: the distribution of the responses. *)
From Coq Require Import List Reals ZArith Lia Lra Arith String Floats.
From Coquelicot Require Import Coquelicot.
From Verif Require Import Model.Base Model.Family Spec.Numbers Spec.FamilySpec
  Proofs.FamilyLemmas Proofs.FamilyMain Proofs.FamilyCases Proofs.FloatMain.
Import ListNotations.
Local Open Scope R_scope.

(** C19: in exact arithmetic [evaluate] is the log-likelihood at the clipped
    logistic means; in every coordinate whose mean is not clipped the four arrays
    hold its first four derivatives (whatever the other coordinates are). *)
Theorem C19_logit_derivatives : forall fam lp y w, make_family "binomial" "logit" = Ok fam ->
  List.length y = List.length lp -> List.length w = List.length lp ->
  evaluate Rnum fam lp y w = Ok (loglik (map (fun t => clip (logistic t)) lp) y w) /\
  exists d1 d2 d3 d4,
    evaluateDerivative Rnum fam lp y w = Ok d1 /\
    evaluateSecondDerivative Rnum fam lp y w = Ok d2 /\
    evaluateThirdDerivative Rnum fam lp y w = Ok d3 /\
    evaluateFourthDerivative Rnum fam lp y w = Ok d4 /\
    List.length d1 = List.length lp /\ List.length d2 = List.length lp /\
    List.length d3 = List.length lp /\ List.length d4 = List.length lp /\
    forall i, (i < List.length lp)%nat -> tiny < logistic (nth i lp 0) < 1 - tiny ->
      let f := fun v => loglik (map (fun t => clip (logistic t)) v) y w in
      is_partial_n f i 1 lp (nth i d1 0) /\ is_partial_n f i 2 lp (nth i d2 0) /\
      is_partial_n f i 3 lp (nth i d3 0) /\ is_partial_n f i 4 lp (nth i d4 0).
Proof. exact C19_main. Qed.
Print Assumptions C19_logit_derivatives.

Example C19_case : make_family "binomial" "logit" = Ok (mkFamily Logit Binomial) /\
  tiny < logistic (nth 1 [20; 1] 0) < 1 - tiny /\
  evaluateDerivative Rnum (mkFamily Logit Binomial) [0] [1] [3] = Ok [3 / 2].
Proof. split; [reflexivity|]. split; [exact logistic_1_inside|exact half_derivative]. Qed.

(** C20: the same with the standard normal distribution function. *)
Theorem C20_probit_derivatives : forall P fam lp y w, is_normal_cdf P ->
  make_family "binomial" "probit" = Ok fam ->
  List.length y = List.length lp -> List.length w = List.length lp ->
  evaluate Rnum fam lp y w = Ok (loglik (map (fun t => clip (P t)) lp) y w) /\
  exists d1 d2 d3 d4,
    evaluateDerivative Rnum fam lp y w = Ok d1 /\
    evaluateSecondDerivative Rnum fam lp y w = Ok d2 /\
    evaluateThirdDerivative Rnum fam lp y w = Ok d3 /\
    evaluateFourthDerivative Rnum fam lp y w = Ok d4 /\
    List.length d1 = List.length lp /\ List.length d2 = List.length lp /\
    List.length d3 = List.length lp /\ List.length d4 = List.length lp /\
    forall i, (i < List.length lp)%nat -> tiny < P (nth i lp 0) < 1 - tiny ->
      let f := fun v => loglik (map (fun t => clip (P t)) v) y w in
      is_partial_n f i 1 lp (nth i d1 0) /\ is_partial_n f i 2 lp (nth i d2 0) /\
      is_partial_n f i 3 lp (nth i d3 0) /\ is_partial_n f i 4 lp (nth i d4 0).
Proof. exact C20_main. Qed.
Print Assumptions C20_probit_derivatives.

Example C20_case : is_normal_cdf normal_cdf /\
  make_family "binomial" "probit" = Ok (mkFamily Probit Binomial) /\
  tiny < normal_cdf (nth 0 [0] 0) < 1 - tiny.
Proof.
  split; [exact normal_cdf_is|]. split; [reflexivity|].
  cbn [nth]. rewrite (proj1 normal_cdf_is). exact half_inside.
Qed.

(** C21: after [checkMean] the means lie in [1e-8, 1 - 1e-8], those already there
    are not moved, and the log-density is bounded. *)
Theorem C21_mean_in_range : forall mean m, In m (checkMean Rnum mean) -> tiny <= m <= 1 - tiny.
Proof. exact checkMean_range. Qed.
Print Assumptions C21_mean_in_range.

Theorem C21_mean_kept : forall mean i, (i < List.length mean)%nat ->
  tiny <= nth i mean 0 <= 1 - tiny -> nth i (checkMean Rnum mean) 0 = nth i mean 0.
Proof. exact checkMean_inside. Qed.
Print Assumptions C21_mean_kept.

Theorem C21_log_density_bounded : forall l lp y w,
  List.length y = List.length lp -> List.length w = List.length lp ->
  (forall c, In c y -> 0 <= c <= 1) -> (forall c, In c w -> 0 <= c) ->
  exists v, evaluate Rnum (mkFamily l Binomial) lp y w = Ok v /\
    ln tiny * fold_right Rplus 0 w <= v <= 0.
Proof. exact C21_bound_main. Qed.
Print Assumptions C21_log_density_bounded.

(** Where the mean is clipped, the derivative of the log-density is zero, and the
    reported derivative is zero only if the weight is zero or the response
    happens to be the limit itself. *)
Theorem C21_clipped_derivative : forall l P fam lp y w i,
  (l = Logit /\ (forall t, P t = logistic t) \/ l = Probit /\ is_normal_cdf P) ->
  fam = mkFamily l Binomial ->
  List.length y = List.length lp -> List.length w = List.length lp -> (i < List.length lp)%nat ->
  (P (nth i lp 0) < tiny \/ 1 - tiny < P (nth i lp 0)) ->
  exists d1, evaluateDerivative Rnum fam lp y w = Ok d1 /\
    is_partial_n (fun v => loglik (map (fun t => clip (P t)) v) y w) i 1 lp 0 /\
    (nth i d1 0 = 0 <-> nth i w 0 = 0 \/ nth i y 0 = clip (P (nth i lp 0))).
Proof. exact C21_clipped_main. Qed.
Print Assumptions C21_clipped_derivative.

Theorem C21_derivative_refuted : exists fam lp y w d1,
  make_family "binomial" "logit" = Ok fam /\
  evaluateDerivative Rnum fam lp y w = Ok d1 /\
  ~ is_partial_n (fun v => loglik (map (fun t => clip (logistic t)) v) y w) 0 1 lp (nth 0 d1 0).
Proof. exact C21_refuted_main. Qed.
Print Assumptions C21_derivative_refuted.

Example C21_case : 1 - tiny < logistic (nth 0 [20] 0) /\ 0 <> clip (logistic 20).
Proof.
  split; [exact logistic_20_high|].
  pose proof (clip_range (logistic 20)). pose proof tiny_small. lra.
Qed.

(** C21 in IEEE doubles: any mean that is not NaN is brought into the range. *)
Theorem C21_double_range : forall fexp flog fpow fcdf fpdf m, PrimFloat.is_nan m = false ->
  let F := Fnum fexp flog fpow fcdf fpdf in
  (eps64 <=? check1 F m)%float = true /\ (check1 F m <=? 1 - eps64)%float = true.
Proof. exact check1_range. Qed.
Print Assumptions C21_double_range.

(** C22: in IEEE doubles.  The C library is left open: all that is asked is that
    the logarithm of NaN is NaN.  Where exp overflows, the mean is NaN before and
    after the clipping, the value of the whole factor is NaN whatever the other
    observations and the weights (even a weight of zero), and so is the
    derivative. *)
Theorem C22_overflow_gives_nan : forall fexp flog fpow fcdf fpdf lp y w i,
  let F := Fnum fexp flog fpow fcdf fpdf in
  flog nan = nan -> List.length y = List.length lp -> List.length w = List.length lp ->
  (i < List.length lp)%nat -> fexp (nth i lp 0%float) = infinity ->
  nth i (checkMean F (computeMean F Logit lp)) 0%float = nan /\
  evaluate F (mkFamily Logit Binomial) lp y w = Ok nan /\
  exists d1, evaluateDerivative F (mkFamily Logit Binomial) lp y w = Ok d1 /\ nth i d1 0%float = nan.
Proof. exact C22_main. Qed.
Print Assumptions C22_overflow_gives_nan.

(** That is the only way a mean can become NaN. *)
Theorem C22_only_overflow : forall fexp flog fpow fcdf fpdf e,
  let F := Fnum fexp flog fpow fcdf fpdf in
  (0 <=? fexp e)%float = true ->
  (logit_mean F e = nan <-> fexp e = infinity) /\
  (logit_mean F e <> nan -> (eps64 <=? check1 F (logit_mean F e))%float = true /\
                            (check1 F (logit_mean F e) <=? 1 - eps64)%float = true).
Proof. exact C22_only_main. Qed.
Print Assumptions C22_only_overflow.

(** A weight of zero does not help: exp overflows at 1000. *)
Example C22_case :
  let fexp := fun x : float => if (709.79 <? x)%float then infinity else 1%float in
  evaluate (Fnum fexp (fun x => x) (fun x _ => x) (fun x => x) (fun x => x))
    (mkFamily Logit Binomial) [1000; 0]%float [1; 1]%float [0; 1]%float = Ok nan.
Proof. vm_compute. reflexivity. Qed.
