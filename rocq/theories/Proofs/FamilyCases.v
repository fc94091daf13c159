(** The statements of Props/FamilyProps.v, and their concrete cases. *)
From Coq Require Import List Reals ZArith Lia Lra Arith String.
From Coquelicot Require Import Coquelicot.
From Interval Require Import Tactic.
From Verif Require Import Model.Base Model.Family Spec.Numbers Spec.FamilySpec
  Proofs.FamilyLemmas Proofs.FamilyMain.
Import ListNotations.
Local Open Scope R_scope.

Lemma make_logit fam : make_family "binomial" "logit" = Ok fam -> fam = mkFamily Logit Binomial.
Proof. intros H. injection H as <-. reflexivity. Qed.
Lemma make_probit fam : make_family "binomial" "probit" = Ok fam -> fam = mkFamily Probit Binomial.
Proof. intros H. injection H as <-. reflexivity. Qed.

Lemma C19_main fam lp y w : make_family "binomial" "logit" = Ok fam ->
  List.length y = List.length lp -> List.length w = List.length lp ->
  evaluate Rnum fam lp y w = Ok (loglik (map (fun t => clip (logistic t)) lp) y w) /\
  exists d1 d2 d3 d4,
    evaluateDerivative Rnum fam lp y w = Ok d1 /\
    evaluateSecondDerivative Rnum fam lp y w = Ok d2 /\
    evaluateThirdDerivative Rnum fam lp y w = Ok d3 /\
    evaluateFourthDerivative Rnum fam lp y w = Ok d4 /\
    List.length d1 = List.length lp /\ List.length d2 = List.length lp /\
    List.length d3 = List.length lp /\ List.length d4 = List.length lp /\
    forall i, (i < List.length lp)%nat -> tiny < logistic (nth i lp 0) < 1 - tiny ->
      let f := fun v => loglik (map (fun t => clip (logistic t)) v) y w in
      is_partial_n f i 1 lp (nth i d1 0) /\ is_partial_n f i 2 lp (nth i d2 0) /\
      is_partial_n f i 3 lp (nth i d3 0) /\ is_partial_n f i 4 lp (nth i d4 0).
Proof.
  intros Hf Hy Hw. rewrite (make_logit _ Hf). apply partials; try assumption.
  apply logit_logistic.
Qed.

Lemma C20_main P fam lp y w : is_normal_cdf P -> make_family "binomial" "probit" = Ok fam ->
  List.length y = List.length lp -> List.length w = List.length lp ->
  evaluate Rnum fam lp y w = Ok (loglik (map (fun t => clip (P t)) lp) y w) /\
  exists d1 d2 d3 d4,
    evaluateDerivative Rnum fam lp y w = Ok d1 /\
    evaluateSecondDerivative Rnum fam lp y w = Ok d2 /\
    evaluateThirdDerivative Rnum fam lp y w = Ok d3 /\
    evaluateFourthDerivative Rnum fam lp y w = Ok d4 /\
    List.length d1 = List.length lp /\ List.length d2 = List.length lp /\
    List.length d3 = List.length lp /\ List.length d4 = List.length lp /\
    forall i, (i < List.length lp)%nat -> tiny < P (nth i lp 0) < 1 - tiny ->
      let f := fun v => loglik (map (fun t => clip (P t)) v) y w in
      is_partial_n f i 1 lp (nth i d1 0) /\ is_partial_n f i 2 lp (nth i d2 0) /\
      is_partial_n f i 3 lp (nth i d3 0) /\ is_partial_n f i 4 lp (nth i d4 0).
Proof.
  intros HP Hf Hy Hw. rewrite (make_probit _ Hf). apply partials; try assumption.
  intros t. apply (normal_cdf_unique P HP t).
Qed.

Lemma checkMean_range (mean : list R) m : In m (checkMean Rnum mean) -> tiny <= m <= 1 - tiny.
Proof.
  unfold checkMean. intros H. apply in_map_iff in H. destruct H as [x [<- _]].
  rewrite check1_clip. apply clip_range.
Qed.

Lemma checkMean_inside (mean : list R) i : (i < List.length mean)%nat ->
  tiny <= nth i mean 0 <= 1 - tiny -> nth i (checkMean Rnum mean) 0 = nth i mean 0.
Proof.
  intros Hi H. unfold checkMean.
  rewrite (nth_indep _ 0 (check1 Rnum 0)) by (rewrite map_length; exact Hi).
  etransitivity; [apply (map_nth (check1 Rnum))|]. etransitivity; [apply check1_clip|].
  change (N Rnum) with R in *. pose proof tiny_small. unfold clip. rewrite Rmin_left by lra. apply Rmax_right. lra.
Qed.

Lemma C21_bound_main l lp y w : List.length y = List.length lp -> List.length w = List.length lp ->
  (forall c, In c y -> 0 <= c <= 1) -> (forall c, In c w -> 0 <= c) ->
  exists v, evaluate Rnum (mkFamily l Binomial) lp y w = Ok v /\
    ln tiny * fold_right Rplus 0 w <= v <= 0.
Proof.
  intros Hy Hw Hy1 Hw1. eexists. split; [apply evaluate_loglik; assumption|].
  set (p := map (fun t => clip (mn0 l t)) lp).
  assert (Hp : forall a, In a p -> tiny <= a <= 1 - tiny).
  { unfold p. intros a Ha. apply in_map_iff in Ha. destruct Ha as [t [<- _]]. apply clip_range. }
  assert (Lp : List.length p = List.length lp) by (unfold p; apply map_length).
  rewrite <- Lp in Hy, Hw. clearbody p. clear Lp lp. pose proof tiny_small as Ht.
  revert y w Hy Hw Hy1 Hw1. induction p as [|a p IH]; intros [|b y] [|c w] Hy Hw Hy1 Hw1; try discriminate.
  - simpl. lra.
  - cbn [loglik fold_right].
    destruct (IH ltac:(intros; apply Hp; right; assumption) y w) as [I1 I2];
      [simpl in *; lia|simpl in *; lia|intros; apply Hy1; right; assumption|intros; apply Hw1; right; assumption|].
    pose proof (Hp a (or_introl eq_refl)) as Ha. pose proof (Hy1 b (or_introl eq_refl)) as Hb.
    pose proof (Hw1 c (or_introl eq_refl)) as Hc.
    assert (A : ln tiny <= ln a <= 0).
    { split; [destruct (Req_dec tiny a) as [->|]; [lra|]; left; apply ln_increasing; lra|].
      rewrite <- ln_1. left; apply ln_increasing; lra. }
    assert (B : ln tiny <= ln (1 - a) <= 0).
    { split; [destruct (Req_dec tiny (1 - a)) as [<-|]; [lra|]; left; apply ln_increasing; lra|].
      rewrite <- ln_1. left; apply ln_increasing; lra. }
    assert (C : ln tiny <= b * ln a + (1 - b) * ln (1 - a) <= 0) by (split; nra).
    split; nra.
Qed.

Lemma C21_clipped_main l P fam lp y w i :
  (l = Logit /\ (forall t, P t = logistic t) \/ l = Probit /\ is_normal_cdf P) ->
  fam = mkFamily l Binomial ->
  List.length y = List.length lp -> List.length w = List.length lp -> (i < List.length lp)%nat ->
  (P (nth i lp 0) < tiny \/ 1 - tiny < P (nth i lp 0)) ->
  exists d1, evaluateDerivative Rnum fam lp y w = Ok d1 /\
    is_partial_n (fun v => loglik (map (fun t => clip (P t)) v) y w) i 1 lp 0 /\
    (nth i d1 0 = 0 <-> nth i w 0 = 0 \/ nth i y 0 = clip (P (nth i lp 0))).
Proof.
  intros HP -> Hy Hw Hi Hc.
  destruct (clipped l P lp y w i) as [A [d1 [B C]]]; try assumption.
  - destruct HP as [[-> HP]|[-> HP]]; intros t.
    + rewrite HP. apply logit_logistic.
    + apply (normal_cdf_unique P HP t).
  - exists d1. split; [exact B|]. split; assumption.
Qed.

Lemma logistic_20_high : 1 - tiny < logistic 20.
Proof. unfold logistic, tiny. interval. Qed.
Lemma logistic_1_inside : tiny < logistic 1 < 1 - tiny.
Proof. unfold logistic, tiny. split; interval. Qed.
Lemma half_inside : tiny < 1 / 2 < 1 - tiny.
Proof. unfold tiny. simpl. lra. Qed.
Lemma logistic_0 : logistic 0 = 1 / 2.
Proof. unfold logistic. rewrite Ropp_0, exp_0. field. Qed.

Lemma half_derivative : evaluateDerivative Rnum (mkFamily Logit Binomial) [0] [1] [3] = Ok [3 / 2].
Proof.
  destruct (d1_entries Logit [0] [1] [3]) as [r [E [L K]]]; [reflexivity|reflexivity|].
  rewrite E. f_equal. destruct r as [|a [|b r]]; try discriminate L.
  f_equal. specialize (K 0%nat ltac:(simpl; lia)). cbn [nth] in K.
  rewrite entry_unclipped in K.
  - etransitivity; [exact K|]. unfold entry, faa, binomial_d1; cbn [nZ nsub nmul ndiv Rnum N mn0 mn1].
    rewrite logit_logistic, logistic_0. unfold logit_mean1; cbn [nZ nadd ndiv nexp npow Rnum N].
    rewrite exp_0, pow2. field.
  - cbn [mn0]. rewrite logit_logistic, logistic_0. apply half_inside.
Qed.

Lemma C21_refuted_main : exists fam lp y w d1,
  make_family "binomial" "logit" = Ok fam /\
  evaluateDerivative Rnum fam lp y w = Ok d1 /\
  ~ is_partial_n (fun v => loglik (map (fun t => clip (logistic t)) v) y w) 0 1 lp (nth 0 d1 0).
Proof.
  destruct (C21_clipped_main Logit logistic (mkFamily Logit Binomial) [20] [0] [1] 0)
    as [d1 [E [D K]]]; try reflexivity.
  - left. split; reflexivity.
  - simpl. lia.
  - right. exact logistic_20_high.
  - exists (mkFamily Logit Binomial), [20], [0], [1], d1. split; [reflexivity|]. split; [exact E|].
    intros D'. assert (Z : nth 0 d1 0 = 0).
    { unfold is_partial_n in D, D'. apply is_derive_n_unique in D. apply is_derive_n_unique in D'. rewrite D in D'. symmetry. exact D'. }
    apply K in Z. cbn [nth] in Z. pose proof (clip_range (logistic 20)). pose proof tiny_small.
    destruct Z as [Z|Z]; lra.
Qed.
