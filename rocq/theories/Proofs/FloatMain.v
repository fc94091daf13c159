From Coq Require Import List ZArith Lia Arith Reals Floats Bool.
From Flocq Require Import Core BinarySingleNaN PrimFloat.
From Verif Require Import Model.Base Model.Family Spec.Numbers Proofs.CheckedLemmas Proofs.FamilyLemmas.
Import ListNotations.
Local Notation nan := PrimFloat.nan.
Local Notation float := PrimFloat.float.
Local Open Scope float_scope.

Lemma Prim2B_nan : Prim2B nan = B754_nan.
Proof. apply B2SF_inj. rewrite B2SF_Prim2B. reflexivity. Qed.
Lemma Prim2B_infinity : Prim2B infinity = B754_infinity false.
Proof. rewrite infinity_equiv. apply Prim2B_B2Prim. Qed.
Lemma is_nan_nan x : PrimFloat.is_nan x = true <-> x = nan.
Proof.
  split.
  - rewrite is_nan_equiv. intros H. apply Prim2B_inj. rewrite Prim2B_nan.
    destruct (Prim2B x); try discriminate; reflexivity.
  - intros ->. reflexivity.
Qed.

Ltac nanop E := apply Prim2B_inj; rewrite E, !Prim2B_nan;
  try match goal with |- context [Prim2B ?x] => destruct (Prim2B x) end; reflexivity.
Lemma mul_nan_l x : nan * x = nan. Proof. nanop mul_equiv. Qed.
Lemma mul_nan_r x : x * nan = nan. Proof. nanop mul_equiv. Qed.
Lemma add_nan_l x : nan + x = nan. Proof. nanop add_equiv. Qed.
Lemma add_nan_r x : x + nan = nan. Proof. nanop add_equiv. Qed.
Lemma sub_nan_l x : nan - x = nan. Proof. nanop sub_equiv. Qed.
Lemma sub_nan_r x : x - nan = nan. Proof. nanop sub_equiv. Qed.
Lemma div_nan_l x : nan / x = nan. Proof. nanop div_equiv. Qed.
Lemma div_nan_r x : x / nan = nan. Proof. nanop div_equiv. Qed.

(** * Clipping *)
Definition one_eps : float := 1 - eps64.

Lemma Bcompare_total (a b : binary_float prec emax) : is_nan a = false -> is_nan b = false ->
  exists c, Bcompare a b = Some c.
Proof.
  destruct a as [s|s| |s m e h], b as [s'|s'| |s' m' e' h']; intros; try discriminate;
    unfold Bcompare; simpl; repeat match goal with |- context [if ?s then _ else _] => destruct s end; eauto;
    destruct (Z.compare e e'); eauto.
Qed.

Lemma not_ltb_leb x y : PrimFloat.is_nan x = false -> PrimFloat.is_nan y = false ->
  (x <? y) = false -> (y <=? x) = true.
Proof.
  intros Hx Hy. rewrite is_nan_equiv in *. rewrite ltb_equiv, leb_equiv.
  unfold Bltb, Bleb, SFltb, SFleb.
  pose proof (Bcompare_total _ _ Hx Hy) as [c Hc].
  pose proof (Bcompare_swap prec emax (Prim2B x) (Prim2B y)) as Hs.
  unfold Bcompare in Hc, Hs. rewrite Hs, Hc.
  destruct c; simpl; congruence.
Qed.

Local Notation Bp := (@Bplus prec emax Hprec Hmax mode_NE).
Local Notation Bd := (@Bdiv prec emax Hprec Hmax mode_NE).
Section Num.
Variables (fexp flog : float -> float) (fpow : float -> Z -> float) (fcdf fpdf : float -> float).
Notation FN := (Fnum fexp flog fpow fcdf fpdf).

Lemma check1_range m : PrimFloat.is_nan m = false ->
  (eps64 <=? check1 FN m) = true /\ (check1 FN m <=? one_eps) = true.
Proof.
  intros H. unfold check1; cbn [neps nZ nsub nltb Fnum N]. cbv zeta.
  change (float_of_Z 1 - eps64) with one_eps.
  destruct (m <? eps64) eqn:E.
  - change (one_eps <? eps64) with false. cbv iota. split; reflexivity.
  - destruct (one_eps <? m) eqn:E2.
    + split; reflexivity.
    + split; apply not_ltb_leb; auto.
Qed.

Lemma check1_nan : check1 FN nan = nan.
Proof. reflexivity. Qed.

Lemma logit_mean_nan e : fexp e = infinity -> logit_mean FN e = nan.
Proof. intros H. unfold logit_mean; cbn [nexp nZ nadd ndiv Fnum N]. rewrite H. reflexivity. Qed.

Lemma is_nan_B2SF (x : binary_float prec emax) s : B2SF x = S754_infinity s -> is_nan x = false.
Proof. destruct x; simpl; intros; try discriminate; reflexivity. Qed.

Lemma is_finite_nan (x : binary_float prec emax) : is_finite x = true -> is_nan x = false.
Proof. destruct x; simpl; intros; try discriminate; reflexivity. Qed.

Lemma Bplus_not_nan (x y : binary_float prec emax) :
  is_finite x = true -> is_finite y = true -> is_nan (Bp x y) = false.
Proof.
  intros Hx Hy. pose proof (Bplus_correct prec emax Hprec Hmax mode_NE x y Hx Hy) as H.
  destruct (Rlt_bool _ _).
  - destruct H as [_ [H _]]. apply is_finite_nan. exact H.
  - destruct H as [H _]. eapply is_nan_B2SF. exact H.
Qed.

Lemma Bdiv_not_nan (x y : binary_float prec emax) :
  is_finite x = true -> B2R y <> 0%R -> is_nan (Bd x y) = false.
Proof.
  intros Hx Hy. pose proof (Bdiv_correct prec emax Hprec Hmax mode_NE x y Hy) as H.
  destruct (Rlt_bool _ _).
  - destruct H as [_ [H _]]. apply is_finite_nan. congruence.
  - eapply is_nan_B2SF. exact H.
Qed.

Lemma logit_mean_not_nan e : (0 <=? fexp e) = true -> fexp e <> infinity ->
  PrimFloat.is_nan (logit_mean FN e) = false.
Proof.
  intros H0 Hi. unfold logit_mean; cbn [nexp nZ nadd ndiv Fnum N].
  change (float_of_Z 1) with 1.
  assert (Hi' : Prim2B (fexp e) <> B754_infinity false).
  { intros E. apply Hi. apply Prim2B_inj. rewrite E. symmetry. exact Prim2B_infinity. }
  rewrite is_nan_equiv, div_equiv, add_equiv. rewrite leb_equiv in H0.
  assert (Z0 : Prim2B 0 = B754_zero false) by (apply B2SF_inj; rewrite B2SF_Prim2B; reflexivity).
  rewrite Z0 in H0.
  assert (F1 : is_finite (Prim2B 1) = true) by (rewrite <- is_finite_equiv; reflexivity).
  destruct (Prim2B (fexp e)) as [s|s| |s m ee hh] eqn:E.
  - assert (K : Bp (Prim2B 1) (B754_zero s) = Prim2B 1).
    { replace (B754_zero s) with (Prim2B (fexp e)). rewrite <- add_equiv.
      assert (X : fexp e = 0 \/ fexp e = - 0).
      { destruct s; [right|left]; apply Prim2B_inj; rewrite E;
          apply B2SF_inj; rewrite B2SF_Prim2B; reflexivity. }
      destruct X as [X|X]; rewrite X; apply f_equal; reflexivity. }
    rewrite K. apply Bdiv_not_nan; [reflexivity|].
    pose proof (B2SF_Prim2B 1) as Y. change (Prim2SF 1) with (S754_finite false 4503599627370496 (-52)) in Y.
    destruct (Prim2B 1) as [?|?| |s1 m1 e1 h1]; try discriminate Y. simpl.
    apply F2R_neq_0. destruct s1; discriminate.
  - destruct s; [discriminate H0|exfalso; apply Hi'; reflexivity].
  - discriminate H0.
  - assert (P : is_nan (Bp (Prim2B 1) (B754_finite s m ee hh)) = false)
      by (apply Bplus_not_nan; [exact F1|reflexivity]).
    destruct (Bp (Prim2B 1) (B754_finite s m ee hh)) as [s1|s1| |s1 m1 e1 h1] eqn:Ep;
      try discriminate P; try reflexivity.
    apply Bdiv_not_nan; [reflexivity|]. simpl.
    apply F2R_neq_0. destruct s1; discriminate.
Qed.

Lemma logit_mean_nan_iff e : (0 <=? fexp e) = true ->
  (logit_mean FN e = nan <-> fexp e = infinity).
Proof.
  intros H. split; [|apply logit_mean_nan].
  intros E. destruct (PrimFloat.is_infinity (fexp e)) eqn:K.
  - rewrite is_infinity_equiv in K. apply Prim2B_inj. rewrite Prim2B_infinity.
    rewrite leb_equiv in H. destruct (Prim2B (fexp e)) as [s|s| |s m ee hh]; try discriminate K.
    assert (Z0 : Prim2B 0 = B754_zero false) by (apply B2SF_inj; rewrite B2SF_Prim2B; reflexivity).
    rewrite Z0 in H. destruct s; [discriminate H|reflexivity].
  - exfalso. assert (X : PrimFloat.is_nan (logit_mean FN e) = false).
    { apply logit_mean_not_nan; [exact H|]. intros Y. rewrite Y in K. discriminate. }
    rewrite E in X. discriminate.
Qed.

Lemma fold_add_nan (l : list float) : fold_left PrimFloat.add l nan = nan.
Proof. induction l; simpl; [reflexivity|]. rewrite add_nan_l. exact IHl. Qed.

Lemma fold_add_In_nan (l : list float) a : In nan l -> fold_left PrimFloat.add l a = nan.
Proof.
  revert a. induction l as [|x l IH]; intros a H; simpl in *; [contradiction|].
  destruct H as [->|H].
  - rewrite add_nan_r. apply fold_add_nan.
  - apply IH, H.
Qed.

Lemma nan_mean lp y w i : flog nan = nan -> length y = length lp -> length w = length lp ->
  (i < length lp)%nat -> fexp (nth i lp 0) = infinity ->
  nth i (checkMean FN (computeMean FN Logit lp)) 0 = nan /\
  evaluate FN (mkFamily Logit Binomial) lp y w = Ok nan.
Proof.
  intros Hl Hy Hw Hi He.
  assert (Lm : length (checkMean FN (computeMean FN Logit lp)) = length lp)
    by (unfold checkMean, computeMean; rewrite !map_length; reflexivity).
  assert (Hm : nth i (checkMean FN (computeMean FN Logit lp)) 0 = nan).
  { unfold checkMean, computeMean. rewrite map_map.
    rewrite (nth_indep _ _ ((fun x => check1 FN (logit_mean FN x)) 0))
      by (rewrite map_length; exact Hi).
    rewrite (map_nth (fun x => check1 FN (logit_mean FN x))).
    etransitivity; [exact (f_equal (check1 FN) (logit_mean_nan (nth i lp 0) He))|reflexivity]. }
  split; [exact Hm|].
  unfold evaluate, binomial_evaluate. cbn [fam_link].
  set (mn := checkMean FN (computeMean FN Logit lp)) in *.
  destruct (zip3_spec (binomial1 FN) mn y w) as [r [E [L K]]];
    [transitivity (length lp); [exact Lm|symmetry; exact Hy]
    |transitivity (length lp); [exact Lm|symmetry; exact Hw]|].
  rewrite E. cbn [bind]. f_equal. unfold asum. apply fold_add_In_nan.
  assert (Hi' : (i < length mn)%nat) by (rewrite Lm; exact Hi).
  replace nan with (nth i r 0).
  - apply nth_In. rewrite L. exact Hi'.
  - rewrite (K i 0 0 0 0 Hi'). rewrite Hm. unfold binomial1; cbn [nZ nadd nsub nmul nlog Fnum N].
    rewrite Hl, mul_nan_r, add_nan_l. apply mul_nan_r.
Qed.

Lemma nan_derivatives lp y w i : length y = length lp -> length w = length lp ->
  (i < length lp)%nat -> fexp (nth i lp 0) = infinity ->
  exists d1, evaluateDerivative FN (mkFamily Logit Binomial) lp y w = Ok d1 /\ nth i d1 0 = nan.
Proof.
  intros Hy Hw Hi He.
  assert (Lm : length (checkMean FN (computeMean FN Logit lp)) = length lp)
    by (unfold checkMean, computeMean; rewrite !map_length; reflexivity).
  assert (Hm : nth i (checkMean FN (computeMean FN Logit lp)) 0 = nan).
  { unfold checkMean, computeMean. rewrite map_map.
    rewrite (nth_indep _ _ ((fun x => check1 FN (logit_mean FN x)) 0))
      by (rewrite map_length; exact Hi).
    rewrite (map_nth (fun x => check1 FN (logit_mean FN x))).
    etransitivity; [exact (f_equal (check1 FN) (logit_mean_nan (nth i lp 0) He))|reflexivity]. }
  unfold evaluateDerivative. cbn [fam_link].
  set (mn := checkMean FN (computeMean FN Logit lp)) in *.
  destruct (zip3_spec (binomial_d1 FN) mn y w) as [r [E [L K]]];
    [transitivity (length lp); [exact Lm|symmetry; exact Hy]
    |transitivity (length lp); [exact Lm|symmetry; exact Hw]|].
  rewrite E. cbn [bind].
  assert (Ld : length (computeMeanDerivative FN Logit lp) = length lp)
    by (unfold computeMeanDerivative; apply map_length).
  destruct (zip2_spec (nmul FN) (computeMeanDerivative FN Logit lp) r) as [r' [E' [L' K']]].
  { transitivity (length lp); [exact Ld|]. symmetry. etransitivity; [exact L|exact Lm]. }
  exists r'. split; [exact E'|].
  rewrite (K' i 0 0 0) by (rewrite Ld; exact Hi).
  rewrite (K i 0 0 0 0) by (rewrite Lm; exact Hi). rewrite Hm.
  unfold binomial_d1; cbn [nZ nadd nsub nmul ndiv nlog Fnum N].
  rewrite div_nan_r, sub_nan_l, mul_nan_r. apply mul_nan_r.
Qed.
End Num.

Lemma C22_main : forall fexp flog fpow fcdf fpdf lp y w i,
  let F := Fnum fexp flog fpow fcdf fpdf in
  flog nan = nan -> length y = length lp -> length w = length lp ->
  (i < length lp)%nat -> fexp (nth i lp 0) = infinity ->
  nth i (checkMean F (computeMean F Logit lp)) 0 = nan /\
  evaluate F (mkFamily Logit Binomial) lp y w = Ok nan /\
  exists d1, evaluateDerivative F (mkFamily Logit Binomial) lp y w = Ok d1 /\ nth i d1 0 = nan.
Proof.
  intros fexp flog fpow fcdf fpdf lp y w i F Hl Hy Hw Hi He.
  destruct (nan_mean fexp flog fpow fcdf fpdf lp y w i Hl Hy Hw Hi He) as [A B].
  split; [exact A|]. split; [exact B|]. apply nan_derivatives; assumption.
Qed.

Lemma C22_only_main : forall fexp flog fpow fcdf fpdf e,
  let F := Fnum fexp flog fpow fcdf fpdf in
  (0 <=? fexp e) = true ->
  (logit_mean F e = nan <-> fexp e = infinity) /\
  (logit_mean F e <> nan -> (eps64 <=? check1 F (logit_mean F e)) = true /\
                            (check1 F (logit_mean F e) <=? 1 - eps64) = true).
Proof.
  intros fexp flog fpow fcdf fpdf e F H. split; [apply logit_mean_nan_iff; exact H|].
  intros N. apply check1_range. destruct (PrimFloat.is_nan (logit_mean F e)) eqn:E; [|reflexivity].
  apply is_nan_nan in E. contradiction.
Qed.
