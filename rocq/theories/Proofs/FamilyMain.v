From Coq Require Import List Reals ZArith Lia Lra Arith.
From Coquelicot Require Import Coquelicot.
From Verif Require Import Model.Base Model.Family Spec.Numbers Spec.FamilySpec Proofs.CheckedLemmas
  Proofs.FamilyLemmas.
Import ListNotations.
Local Open Scope R_scope.

Lemma check1_clip m : check1 Rnum m = clip m.
Proof.
  unfold check1, clip, tiny; cbn [neps nZ nsub nltb Rnum N]. unfold Rltb. cbv zeta.
  replace (/ 10 ^ 8) with (1 / 100000000) by (simpl; field).
  unfold Rmax, Rmin.
  destruct (Rle_dec m (1 - 1 / 100000000)) as [g|g];
  (destruct (Rlt_dec m (1 / 100000000)) as [h|h]; cbv iota;
  [destruct (Rlt_dec (1 - 1 / 100000000) (1 / 100000000)); [exfalso; lra|]
  |destruct (Rlt_dec (1 - 1 / 100000000) m)]; cbv iota;
  repeat match goal with |- context [Rle_dec ?a ?b] => destruct (Rle_dec a b) end; cbv iota in *; lra).
Qed.

Lemma clip_inside p : tiny < p < 1 - tiny -> clip p = p.
Proof.
  intros H. unfold clip, Rmax, Rmin. destruct (Rle_dec p (1 - tiny)).
  all:   repeat match goal with |- context [Rle_dec ?a ?b] => destruct (Rle_dec a b) end; lra.
Qed.

Lemma tiny_small : 0 < tiny < 1 / 2.
Proof. unfold tiny. simpl. lra. Qed.

Lemma clip_range p : tiny <= clip p <= 1 - tiny.
Proof.
  pose proof tiny_small. unfold clip, Rmax, Rmin. destruct (Rle_dec p (1 - tiny)).
  all:   repeat match goal with |- context [Rle_dec ?a ?b] => destruct (Rle_dec a b) end; lra.
Qed.

Lemma fold_left_Rplus (l : list R) a : fold_left Rplus l a = a + fold_left Rplus l 0.
Proof.
  revert a. induction l; intros; simpl; [ring|]. rewrite IHl, (IHl (0 + _)). ring.
Qed.

Lemma loglik_eval p y w : length y = length p -> length w = length p ->
  binomial_evaluate Rnum p y w = Ok (loglik p y w).
Proof.
  unfold binomial_evaluate, asum.
  revert y w. induction p as [|a p IH]; intros [|b y] [|c w] Hy Hw; try discriminate; [reflexivity|].
  specialize (IH y w ltac:(simpl in *; lia) ltac:(simpl in *; lia)).
  rewrite zip3_cons. destruct (zip3 (binomial1 Rnum) p y w) as [r| | |]; try discriminate.
  cbn [bind] in *. injection IH as IH. f_equal. cbn [fold_left].
  etransitivity; [apply fold_left_Rplus|]. cbn [loglik]. rewrite <- IH.
  unfold binomial1; cbn [nZ nadd nsub nmul nlog Rnum N]. ring.
Qed.

Lemma loglik_coord (g : R -> R) v y w i : length y = length v -> length w = length v ->
  (i < length v)%nat ->
  exists c, forall t, loglik (map g (upd v i t)) y w
    = c + binomial1 Rnum (g t) (nth i y 0) (nth i w 0).
Proof.
  revert y w i. induction v as [|a v IH]; intros [|b y] [|c w] i Hy Hw Hi; try discriminate;
    simpl in Hi; try lia.
  destruct i as [|i].
  - exists (loglik (map g v) y w). intros t. cbn [upd map loglik nth].
    unfold binomial1; cbn [nZ nadd nsub nmul nlog Rnum N]. ring.
  - destruct (IH y w i) as [k Hk]; [simpl in *; lia|simpl in *; lia|lia|].
    exists (c * (b * ln (g a) + (1 - b) * ln (1 - g a)) + k). intros t.
    cbn [upd map loglik nth]. rewrite Hk. ring.
Qed.

Definition mn0 (l : link) := match l with Logit => logit_mean Rnum | Probit => probit_mean Rnum end.
Definition mn1 (l : link) := match l with Logit => logit_mean1 Rnum | Probit => probit_mean1 Rnum end.
Definition mn2 (l : link) := match l with Logit => logit_mean2 Rnum | Probit => probit_mean2 Rnum end.
Definition mn3 (l : link) := match l with Logit => logit_mean3 Rnum | Probit => probit_mean3 Rnum end.
Definition mn4 (l : link) := match l with Logit => logit_mean4 Rnum | Probit => probit_mean4 Rnum end.
Lemma mn_D0 l t : is_derive (mn0 l) t (mn1 l t).
Proof. destruct l; [apply logit_D0|apply probit_D0]. Qed.
Lemma mn_D1 l t : is_derive (mn1 l) t (mn2 l t).
Proof. destruct l; [apply logit_D1|apply probit_D1]. Qed.
Lemma mn_D2 l t : is_derive (mn2 l) t (mn3 l t).
Proof. destruct l; [apply logit_D2|apply probit_D2]. Qed.
Lemma mn_D3 l t : is_derive (mn3 l) t (mn4 l t).
Proof. destruct l; [apply logit_D3|apply probit_D3]. Qed.

(** Entry [i] of the k-th derivative array. *)
Definition entry (l : link) (k : nat) (y w t : R) : R :=
  faa (mn0 l) (mn1 l) (mn2 l) (mn3 l) (mn4 l) (fun m => binomial1 Rnum m y w)
    (fun m => binomial_d1 Rnum m y w) (fun m => binomial_d2 Rnum m y w)
    (fun m => binomial_d3 Rnum m y w) (fun m => binomial_d4 Rnum m y w) k t.
Definition entry_c (l : link) (k : nat) (y w t : R) : R :=
  faa (fun t => check1 Rnum (mn0 l t)) (mn1 l) (mn2 l) (mn3 l) (mn4 l) (fun m => binomial1 Rnum m y w)
    (fun m => binomial_d1 Rnum m y w) (fun m => binomial_d2 Rnum m y w)
    (fun m => binomial_d3 Rnum m y w) (fun m => binomial_d4 Rnum m y w) k t.
Lemma entry_unclipped l k y w t : tiny < mn0 l t < 1 - tiny -> entry_c l k y w t = entry l k y w t.
Proof.
  intros H. unfold entry_c, entry, faa.
  rewrite check1_clip, (clip_inside _ H). reflexivity.
Qed.

Lemma entry_derive l y w c x k : (1 <= k <= 4)%nat -> tiny < mn0 l x < 1 - tiny ->
  is_derive_n (fun t => c + binomial1 Rnum (clip (mn0 l t)) y w) k x (entry l k y w x).
Proof.
  intros Hk Hx. pose proof tiny_small as Ht.
  set (U := fun t => tiny < mn0 l t < 1 - tiny).
  assert (Ho : forall t, U t -> locally t U).
  { intros t Hu. eapply locally_between; [apply mn_D0|exact Hu]. }
  set (F := fun k t => match k with 0%nat => c + entry l 0 y w t | _ => entry l k y w t end).
  apply (is_derive_n_ext_loc (F 0%nat)).
  { generalize (Ho x Hx). apply filter_imp. intros u Hu. unfold F. unfold entry, faa.
    rewrite (clip_inside _ Hu). reflexivity. }
  replace (entry l k y w x) with (F k x) by (destruct k; [lia|reflexivity]).
  apply (derive_chain U); [exact Ho| |exact Hx].
  intros j t Hj Hu.
  assert (G : is_derive (entry l j y w) t (entry l (S j) y w t)).
  { unfold entry. apply (faa_chain _ _ _ _ _ _ _ _ _ _ 0 1); try lia.
    - apply mn_D0. - apply mn_D1. - apply mn_D2. - apply mn_D3.
    - apply binomial_D0. - apply binomial_D1. - apply binomial_D2. - apply binomial_D3.
    - unfold U in Hu. lra. }
  destruct j as [|j]; unfold F; [|exact G].
  apply (is_derive_R_ext (fun t => c + entry l 0 y w t) _ t (0 + entry l 1 y w t));
    [reflexivity|ring|].
  apply (is_derive_plus (fun _ => c) (entry l 0 y w)); [apply (is_derive_const c t)|exact G].
Qed.

Lemma mn0_link l lp : computeMean Rnum l lp = map (mn0 l) lp.
Proof. destruct l; reflexivity. Qed.
Lemma mn1_link l lp : computeMeanDerivative Rnum l lp = map (mn1 l) lp.
Proof. destruct l; reflexivity. Qed.
Lemma mn2_link l lp : computeMeanSecondDerivative Rnum l lp = map (mn2 l) lp.
Proof. destruct l; reflexivity. Qed.
Lemma mn3_link l lp : computeMeanThirdDerivative Rnum l lp = map (mn3 l) lp.
Proof. destruct l; reflexivity. Qed.
Lemma mn4_link l lp : computeMeanFourthDerivative Rnum l lp = map (mn4 l) lp.
Proof. destruct l; reflexivity. Qed.

Lemma evaluate_loglik l lp y w : length y = length lp -> length w = length lp ->
  evaluate Rnum (mkFamily l Binomial) lp y w = Ok (loglik (map (fun t => clip (mn0 l t)) lp) y w).
Proof.
  intros Hy Hw. unfold evaluate, checkMean; cbn [fam_link]. rewrite mn0_link, map_map.
  rewrite loglik_eval by (rewrite map_length; assumption).
  do 2 f_equal. apply map_ext. intros; apply check1_clip.
Qed.

Ltac lens := change (N Rnum) with R in *; rewrite ?map_length in *; unfold checkMean in *; rewrite ?map_length in *; congruence.
Ltac lens2 := change (N Rnum) with R in *; rewrite ?map_length in *; lia.
Ltac step2 f a b r := let E := fresh "E" in let L := fresh "L" in let K := fresh "K" in
  destruct (zip2_spec f a b) as [r [E [L K]]]; [lens|]; rewrite E; cbn [bind].
Ltac step3 f a b c r := let E := fresh "E" in let L := fresh "L" in let K := fresh "K" in
  destruct (zip3_spec f a b c) as [r [E [L K]]]; [lens|lens|]; rewrite E; cbn [bind].
Ltac step := match goal with
  | |- context [zip3 ?f ?a ?b ?c] => let r := fresh "r" in step3 f a b c r
  | |- context [zip2 ?f ?a ?b] => let r := fresh "r" in step2 f a b r
  end.
Ltac entries i d :=
  repeat match goal with
  | K : forall _ _ _ _ _, (_ < length ?a)%nat -> nth _ ?r _ = _ |- context [nth i ?r _] =>
      rewrite (K i d d d) by lens
  | K : forall _ _ _ _, (_ < length ?a)%nat -> nth _ ?r _ = _ |- context [nth i ?r _] =>
      rewrite (K i d d) by lens
  end.

Section Arrays.
Variables (l : link) (lp y w : list R).
Hypothesis (Hy : length y = length lp) (Hw : length w = length lp).
Let fam := mkFamily l Binomial.

Lemma nth_map_in (f : R -> R) i d : (i < length lp)%nat -> nth i (map f lp) d = f (nth i lp 0).
Proof. intros. rewrite (nth_indep _ d (f 0)) by (rewrite map_length; assumption). apply map_nth. Qed.

Lemma d1_entries : exists r, evaluateDerivative Rnum fam lp y w = Ok r /\ length r = length lp /\
  forall i, (i < length lp)%nat -> nth i r 0 = entry_c l 1 (nth i y 0) (nth i w 0) (nth i lp 0).
Proof.
  unfold evaluateDerivative, fam; cbn [fam_link].
  rewrite mn0_link, mn1_link. unfold checkMean. rewrite map_map.
  repeat step. eexists. split; [reflexivity|]. split; [lens|].
  intros i Hi.
  repeat match goal with
  | K : forall _ _ _ _ _, _ -> nth _ ?r _ = _ |- context [nth i ?r _] =>
      rewrite (K i 0 0 0) by lens2
  | K : forall _ _ _ _, _ -> nth _ ?r _ = _ |- context [nth i ?r _] =>
      rewrite (K i 0 0) by lens2
  end.
  rewrite !nth_map_in by assumption. reflexivity.
Qed.

Lemma d2_entries : exists r, evaluateSecondDerivative Rnum fam lp y w = Ok r /\ length r = length lp /\
  forall i, (i < length lp)%nat -> nth i r 0 = entry_c l 2 (nth i y 0) (nth i w 0) (nth i lp 0).
Proof.
  unfold evaluateSecondDerivative, fam; cbn [fam_link].
  rewrite mn0_link, mn1_link, mn2_link. unfold checkMean. rewrite map_map.
  repeat step. eexists. split; [reflexivity|]. split; [lens|].
  intros i Hi.
  repeat match goal with
  | K : forall _ _ _ _ _, _ -> nth _ ?r _ = _ |- context [nth i ?r _] =>
      rewrite (K i 0 0 0) by lens2
  | K : forall _ _ _ _, _ -> nth _ ?r _ = _ |- context [nth i ?r _] =>
      rewrite (K i 0 0) by lens2
  end.
  rewrite !nth_map_in by assumption. reflexivity.
Qed.

Lemma d3_entries : exists r, evaluateThirdDerivative Rnum fam lp y w = Ok r /\ length r = length lp /\
  forall i, (i < length lp)%nat -> nth i r 0 = entry_c l 3 (nth i y 0) (nth i w 0) (nth i lp 0).
Proof.
  unfold evaluateThirdDerivative, fam; cbn [fam_link].
  rewrite mn0_link, mn1_link, mn2_link, mn3_link. unfold checkMean. rewrite map_map.
  repeat step. eexists. split; [reflexivity|]. split; [lens|].
  intros i Hi.
  repeat match goal with
  | K : forall _ _ _ _ _, _ -> nth _ ?r _ = _ |- context [nth i ?r _] =>
      rewrite (K i 0 0 0) by lens2
  | K : forall _ _ _ _, _ -> nth _ ?r _ = _ |- context [nth i ?r _] =>
      rewrite (K i 0 0) by lens2
  end.
  rewrite !nth_map_in by assumption. reflexivity.
Qed.

Lemma d4_entries : exists r, evaluateFourthDerivative Rnum fam lp y w = Ok r /\ length r = length lp /\
  forall i, (i < length lp)%nat -> nth i r 0 = entry_c l 4 (nth i y 0) (nth i w 0) (nth i lp 0).
Proof.
  unfold evaluateFourthDerivative, fam; cbn [fam_link].
  rewrite mn0_link, mn1_link, mn2_link, mn3_link, mn4_link. unfold checkMean. rewrite map_map.
  repeat step. eexists. split; [reflexivity|]. split; [lens|].
  intros i Hi.
  repeat match goal with
  | K : forall _ _ _ _ _, _ -> nth _ ?r _ = _ |- context [nth i ?r _] =>
      rewrite (K i 0 0 0) by lens2
  | K : forall _ _ _ _, _ -> nth _ ?r _ = _ |- context [nth i ?r _] =>
      rewrite (K i 0 0) by lens2
  end.
  rewrite !nth_map_in by assumption. reflexivity.
Qed.

Lemma partials (P : R -> R) : (forall t, mn0 l t = P t) ->
  evaluate Rnum fam lp y w = Ok (loglik (map (fun t => clip (P t)) lp) y w) /\
  exists d1 d2 d3 d4,
    evaluateDerivative Rnum fam lp y w = Ok d1 /\
    evaluateSecondDerivative Rnum fam lp y w = Ok d2 /\
    evaluateThirdDerivative Rnum fam lp y w = Ok d3 /\
    evaluateFourthDerivative Rnum fam lp y w = Ok d4 /\
    length d1 = length lp /\ length d2 = length lp /\ length d3 = length lp /\ length d4 = length lp /\
    forall i, (i < length lp)%nat -> tiny < P (nth i lp 0) < 1 - tiny ->
      let f := fun v => loglik (map (fun t => clip (P t)) v) y w in
      is_partial_n f i 1 lp (nth i d1 0) /\ is_partial_n f i 2 lp (nth i d2 0) /\
      is_partial_n f i 3 lp (nth i d3 0) /\ is_partial_n f i 4 lp (nth i d4 0).
Proof.
  intros HP. split.
  { unfold fam. rewrite evaluate_loglik by assumption. do 2 f_equal. apply map_ext. intros; congruence. }
  destruct d1_entries as [d1 [E1 [L1 K1]]]. destruct d2_entries as [d2 [E2 [L2 K2]]].
  destruct d3_entries as [d3 [E3 [L3 K3]]]. destruct d4_entries as [d4 [E4 [L4 K4]]].
  exists d1, d2, d3, d4. repeat (split; [assumption|]). intros i Hi Hc f.
  destruct (loglik_coord (fun t => clip (P t)) lp y w i Hy Hw Hi) as [c Hf].
  assert (G : forall k, (1 <= k <= 4)%nat ->
     is_partial_n f i k lp (entry_c l k (nth i y 0) (nth i w 0) (nth i lp 0))).
  { intros k Hk. rewrite <- HP in Hc. rewrite entry_unclipped by exact Hc. unfold is_partial_n.
    eapply is_derive_n_ext; [|apply (entry_derive l _ _ c _ k Hk Hc)].
    intros t. unfold f. rewrite Hf. rewrite HP. reflexivity. }
  rewrite K1, K2, K3, K4 by exact Hi.
  split; [apply G; lia|]. split; [apply G; lia|]. split; apply G; lia.
Qed.
End Arrays.

Lemma mn1_pos l t : 0 < mn1 l t.
Proof.
  destruct l; unfold mn1.
  - unfold logit_mean1; cbn [nZ nadd ndiv nexp npow Rnum N]. rewrite pow2.
    pose proof (exp_pos t). apply Rdiv_lt_0_compat; [assumption|]. apply pow_lt. lra.
  - unfold probit_mean1; cbn [npdf Rnum N]. unfold normal_pdf.
    apply Rdiv_lt_0_compat; [apply exp_pos|apply sqrt_2PI_pos].
Qed.

Lemma locally_lt_R (f : R -> R) a t d : is_derive f t d -> f t < a -> locally t (fun u => f u < a).
Proof.
  intros Hd Ha.
  assert (C : continuous f t) by (apply (ex_derive_continuous f); exists d; exact Hd).
  exact (C _ (open_lt a (f t) Ha)).
Qed.
Lemma locally_gt_R (f : R -> R) a t d : is_derive f t d -> a < f t -> locally t (fun u => a < f u).
Proof.
  intros Hd Ha.
  assert (C : continuous f t) by (apply (ex_derive_continuous f); exists d; exact Hd).
  exact (C _ (open_gt a (f t) Ha)).
Qed.

Lemma clip_low p : p < tiny -> clip p = tiny.
Proof.
  pose proof tiny_small. intros. unfold clip. rewrite Rmin_left by lra. apply Rmax_left. lra.
Qed.
Lemma clip_high p : 1 - tiny < p -> clip p = 1 - tiny.
Proof.
  pose proof tiny_small. intros. unfold clip. rewrite Rmin_right by lra. apply Rmax_right. lra.
Qed.

Lemma clipped (l : link) (P : R -> R) lp y w i : (forall t, mn0 l t = P t) ->
  length y = length lp -> length w = length lp -> (i < length lp)%nat ->
  (P (nth i lp 0) < tiny \/ 1 - tiny < P (nth i lp 0)) ->
  is_partial_n (fun v => loglik (map (fun t => clip (P t)) v) y w) i 1 lp 0 /\
  exists d1, evaluateDerivative Rnum (mkFamily l Binomial) lp y w = Ok d1 /\
    (nth i d1 0 = 0 <-> nth i w 0 = 0 \/ nth i y 0 = clip (P (nth i lp 0))).
Proof.
  intros HP Hy Hw Hi Hc. split.
  - destruct (loglik_coord (fun t => clip (P t)) lp y w i Hy Hw Hi) as [c Hf].
    unfold is_partial_n. set (x := nth i lp 0) in *.
    apply (is_derive_n_ext_loc (fun _ => c + binomial1 Rnum (clip (P x)) (nth i y 0) (nth i w 0))).
    + rewrite <- !HP in Hc.
      destruct Hc as [Hc|Hc].
      * generalize (locally_lt_R _ _ _ _ (mn_D0 l x) Hc). apply filter_imp. intros u Hu.
        rewrite Hf. rewrite <- !HP. rewrite !clip_low by assumption. reflexivity.
      * generalize (locally_gt_R _ _ _ _ (mn_D0 l x) Hc). apply filter_imp. intros u Hu.
        rewrite Hf. rewrite <- !HP. rewrite !clip_high by assumption. reflexivity.
    + simpl. apply (is_derive_const (V := R_NormedModule)).
  - destruct (d1_entries l lp y w Hy Hw) as [d1 [E1 [_ K1]]]. exists d1. split; [exact E1|].
    rewrite K1 by exact Hi. unfold entry_c, faa. rewrite check1_clip, HP.
    pose proof (clip_range (P (nth i lp 0))) as Hr. pose proof tiny_small.
    set (m := clip _) in *. pose proof (mn1_pos l (nth i lp 0)) as Hp.
    unfold binomial_d1; cbn [nZ nsub nmul ndiv Rnum N].
    replace (mn1 l (nth i lp 0) * (nth i w 0 * (nth i y 0 / m - (1 - nth i y 0) / (1 - m))))
      with (mn1 l (nth i lp 0) / (m * (1 - m)) * (nth i w 0 * (nth i y 0 - m))) by (field; lra).
    assert (Q : mn1 l (nth i lp 0) / (m * (1 - m)) <> 0).
    { apply Rgt_not_eq. apply Rdiv_lt_0_compat; [exact Hp|]. apply Rmult_lt_0_compat; lra. }
    split.
    + intros E. apply Rmult_integral in E. destruct E as [E|E]; [contradiction|].
      apply Rmult_integral in E. destruct E as [E|E]; [left; exact E|right; lra].
    + intros [E|E]; [rewrite E; ring|]. rewrite E. unfold m. ring.
Qed.

(** Total size of the log-density. *)
Lemma loglik_bound p y w : length y = length p -> length w = length p ->
  (forall a, In a p -> tiny <= a <= 1 - tiny) ->
  Rabs (loglik p y w) <= - ln tiny * fold_right Rplus 0 (map (fun c => Rabs (snd c) * (Rabs (fst c) + Rabs (1 - fst c))) (combine y w)).
Proof.
  pose proof tiny_small as Ht.
  revert y w. induction p as [|a p IH]; intros [|b y] [|c w] Hy Hw Hp; try discriminate.
  - simpl. rewrite Rabs_R0. lra.
  - cbn [loglik combine map fold_right fst snd].
    specialize (IH y w ltac:(simpl in *; lia) ltac:(simpl in *; lia) ltac:(intros; apply Hp; right; assumption)).
    pose proof (Hp a (or_introl eq_refl)) as Ha.
    assert (A : Rabs (ln a) <= - ln tiny).
    { rewrite Rabs_left1; [|apply Rle_trans with (ln 1); [|rewrite ln_1; lra]].
      - apply Ropp_le_contravar. destruct (Req_dec tiny a) as [->|]; [lra|]. left. apply ln_increasing; lra.
      - left. apply ln_increasing; lra. }
    assert (B : Rabs (ln (1 - a)) <= - ln tiny).
    { rewrite Rabs_left1; [|apply Rle_trans with (ln 1); [|rewrite ln_1; lra]].
      - apply Ropp_le_contravar. destruct (Req_dec tiny (1 - a)) as [<-|]; [lra|]. left. apply ln_increasing; lra.
      - left. apply ln_increasing; lra. }
    eapply Rle_trans; [apply Rabs_triang|].
    rewrite (Rmult_plus_distr_l (- ln tiny)). apply Rplus_le_compat; [|exact IH].
    rewrite Rabs_mult.
    replace (- ln tiny * (Rabs c * (Rabs b + Rabs (1 - b)))) with
      (Rabs c * (Rabs b * (- ln tiny) + Rabs (1 - b) * (- ln tiny))) by ring.
    apply Rmult_le_compat_l; [apply Rabs_pos|].
    eapply Rle_trans; [apply Rabs_triang|]. rewrite !Rabs_mult.
    apply Rplus_le_compat; (apply Rmult_le_compat_l; [apply Rabs_pos|assumption]).
Qed.
