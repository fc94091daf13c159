(** C30: with one quadrature point, integrating over all items is Laplace's method. *)
From Coq Require Import List Reals Lia Lra Arith Bool.
From Verif Require Import Model.Base Model.Mixed Model.Vectors Model.MultiNormal Model.Quadrature
  Model.IntegratedFunction Model.Margin Spec.GLMMSpec Spec.MatrixSpec Spec.HermiteSpec Spec.LaplaceSpec
  Proofs.GLMMLemmas Proofs.VectorLemmas Proofs.SumLemmas Proofs.NormalMain Proofs.IntegratedMain Proofs.ConditionalMain
  Proofs.HermiteMain.
Import ListNotations.
Local Open Scope R_scope.

(** * One point *)
Section OnePoint.
Variables (es : rmat -> rvec * rmat) (lam : rvec) (Q : rmat).
Hypothesis Hes : es (findHermiteJacobi 1) = (lam, Q).
Hypothesis Hed : eigendecomposition 1 (findHermiteJacobi 1) lam Q.

Lemma one_node : exists q, q * q = 1 /\ lam = [0] /\ Q = [[q]].
Proof.
  pose proof (ed_values _ _ _ _ Hed) as Ll. pose proof (ed_vectors _ _ _ _ Hed) as [LQ RQ].
  destruct lam as [|l [|]]; try discriminate. destruct Q as [|row [|]]; try discriminate.
  specialize (RQ 0%nat ltac:(lia)). cbn in RQ. destruct row as [|q [|]]; try discriminate.
  exists q. pose proof (ed_orthonormal _ _ _ _ Hed 0%nat 0%nat ltac:(lia) ltac:(lia)) as E.
  pose proof (ed_eigen _ _ _ _ Hed 0%nat 0%nat ltac:(lia) ltac:(lia)) as F.
  unfold sumR, entry, unit_entry, lower in *. cbn in E, F. split; [lra|]. split; [|reflexivity].
  f_equal. assert (E1 : q * q = 1) by lra. assert (F1 : l * q = 0) by (unfold entry in F; cbn in F; lra).
  replace l with (l * q * q) by (rewrite Rmult_assoc, E1; ring). rewrite F1. ring.
Qed.
Lemma one_point i x : 0 < if_sigma i ->
  if_evaluate i (rule_initialize es 1) x
  = if_function i (insert (if_over i) x (findConditionalMean i x)) + ln (sqrt 2 * sqrtPi * if_sigma i).
Proof.
  intros Hs. destruct one_node as [q [Eq [El EQ]]].
  assert (H2 : 0 < sqrt 2) by (apply sqrt_lt_R0; lra).
  assert (HP : 0 < sqrtPi) by (unfold sqrtPi; lra).
  unfold if_evaluate, integrateNoLog, integrate1D, rule_initialize. rewrite Hes, El, EQ.
  cbn [hd map combine qr_nodes qr_weights fold_left fst snd]. unfold extendArgument.
  set (c := findConditionalMean i x). replace (sqrt 2 * if_sigma i * 0 + c) with c by ring.
  set (v := if_function i (insert (if_over i) x c)).
  replace (0 ^ 2) with 0 by ring. rewrite exp_0.
  replace (sqrt 2 * if_sigma i * (0 + sqrtPi * q * q * exp (v - if_logValueAtMean i) * 1))
    with (sqrt 2 * sqrtPi * if_sigma i * exp (v - if_logValueAtMean i) * (q * q)) by ring.
  rewrite Eq, Rmult_1_r. rewrite ln_mult; [rewrite ln_exp; ring| |apply exp_pos].
  apply Rmult_lt_0_compat; [apply Rmult_lt_0_compat|]; assumption.
Qed.
End OnePoint.

(** * Elimination *)
Lemma det_ext n : forall P P', (forall i j, (i < n)%nat -> (j < n)%nat -> P i j = P' i j) -> det n P = det n P'.
Proof.
  induction n as [|n IH]; intros P P' H; [reflexivity|]. cbn [det]. rewrite (H 0%nat 0%nat) by lia. f_equal.
  apply IH. intros i j Hi Hj. rewrite !H by lia. reflexivity.
Qed.
Lemma quad_zero d P v : length v = d -> quad d P (repeat 0 d) v
  = sumR d (fun i => sumR d (fun j => nth i v 0 * entry P i j * nth j v 0)).
Proof.
  intros Lv. unfold quad. apply sumR_ext. intros i Hi. apply sumR_ext. intros j Hj. rewrite !nth_zeros. ring.
Qed.
Lemma are_inverse_ext d A A' B : are_inverse d A B -> square d A' ->
  (forall i j, (i < d)%nat -> (j < d)%nat -> entry A' i j = entry A i j) -> are_inverse d A' B.
Proof.
  intros [SA [SB H]] SA' E. split; [exact SA'|]. split; [exact SB|]. intros i j Hi Hj.
  destruct (H i j Hi Hj) as [H1 H2]. split.
  - rewrite <- H1. unfold row_col. apply sumR_ext. intros k Hk. rewrite E by auto. reflexivity.
  - rewrite <- H2. unfold row_col. apply sumR_ext. intros k Hk. rewrite E by auto. reflexivity.
Qed.
Lemma are_inverse_sym d A B : are_inverse d A B -> are_inverse d B A.
Proof. intros [SA [SB H]]. split; [exact SB|]. split; [exact SA|]. intros i j Hi Hj. destruct (H i j Hi Hj); auto. Qed.

Section Schur.
Variables (n : nat) (P : rmat).
Hypothesis SP : square (S n) P.
Hypothesis Hsym : symmetric (S n) P.
Hypothesis HPD : positive_definite (S n) P.
Lemma pivot_pos : 0 < entry P 0 0.
Proof.
  pose (v := 1 :: repeat 0 n).
  assert (Lv : length v = S n) by (unfold v; cbn; rewrite repeat_length; reflexivity).
  pose proof (HPD v Lv) as H. rewrite quad_zero in H by auto.
  assert (E : sumR (S n) (fun i => sumR (S n) (fun j => nth i v 0 * entry P i j * nth j v 0)) = entry P 0 0).
  { rewrite (sumR_single (S n) 0); [|lia|].
    - rewrite (sumR_single (S n) 0); [unfold v; cbn [nth]; ring|lia|].
      intros j Hj Hne. destruct j as [|j]; [lia|]. unfold v. cbn [nth]. rewrite nth_zeros. ring.
    - intros i Hi Hne. destruct i as [|i]; [lia|].
      transitivity (sumR (S n) (fun _ => 0)); [|apply sumR_zero]. apply sumR_ext. intros j Hj.
      unfold v. cbn [nth]. rewrite nth_zeros. ring. }
  rewrite E in H. apply H. exists 0%nat. split; [lia|]. unfold v. cbn. lra.
Qed.
Definition schur : rmat := mat_of n (fun i j => entry P (S i) (S j) - entry P (S i) 0 * entry P 0 (S j) / entry P 0 0).
Lemma schur_entry i j : (i < n)%nat -> (j < n)%nat ->
  entry schur i j = entry P (S i) (S j) - entry P (S i) 0 * entry P 0 (S j) / entry P 0 0.
Proof. intros. unfold schur. rewrite mat_of_entry by auto. reflexivity. Qed.
Lemma schur_symmetric : symmetric n schur.
Proof.
  intros i j Hi Hj. rewrite !schur_entry by auto. rewrite (Hsym (S i) (S j)), (Hsym (S i) 0%nat), (Hsym (S j) 0%nat) by lia.
  field. pose proof pivot_pos. lra.
Qed.
Lemma schur_pd : positive_definite n schur.
Proof.
  intros v Lv [i [Hi Hne]]. pose proof pivot_pos as Hp.
  set (s := sumR n (fun j => entry P 0 (S j) * nth j v 0)).
  set (w := (- s / entry P 0 0) :: v).
  assert (Lw : length w = S n) by (unfold w; cbn; lia).
  pose proof (HPD w Lw) as H.
  assert (E : quad n schur (repeat 0 n) v = quad (S n) P (repeat 0 (S n)) w).
  { rewrite !quad_zero by auto. rewrite sumR_S. rewrite (sumR_S n (fun j => nth 0 w 0 * _ * _)).
    rewrite (sumR_ext n (fun i0 => sumR (S n) _) (fun i0 => nth 0 w 0 * (entry P 0 (S i0) * nth i0 v 0) +
        sumR n (fun j => nth i0 v 0 * entry P (S i0) (S j) * nth j v 0))).
    2:{ intros a Ha. rewrite sumR_S. rewrite (Hsym (S a) 0%nat) by lia. unfold w. cbn [nth]. f_equal. ring. }
    rewrite sumR_plus, sumR_scal. fold s.
    rewrite (sumR_ext n (fun i0 => nth 0 w 0 * entry P 0 (S i0) * nth (S i0) w 0)
       (fun i0 => nth 0 w 0 * (entry P 0 (S i0) * nth i0 v 0))) by (intros; unfold w; cbn [nth]; ring).
    rewrite sumR_scal. fold s.
    rewrite (sumR_ext n _ (fun a => sumR n (fun j => nth a v 0 * entry P (S a) (S j) * nth j v 0)
        - (entry P 0 (S a) * nth a v 0) * (s / entry P 0 0))).
    2:{ intros a Ha. 
        rewrite (sumR_ext n _ (fun j => nth a v 0 * entry P (S a) (S j) * nth j v 0
           - (nth a v 0 * entry P (S a) 0 / entry P 0 0) * (entry P 0 (S j) * nth j v 0))).
        2:{ intros j Hj. rewrite schur_entry by auto. field. lra. }
        rewrite sumR_minus, sumR_scal. fold s. f_equal. rewrite (Hsym (S a) 0%nat) by lia. field. lra. }
    rewrite sumR_minus, sumR_scal_r. fold s. unfold w. cbn [nth]. field. lra. }
  rewrite E. apply H. exists (S i). split; [lia|]. exact Hne.
Qed.
Lemma det_schur : det (S n) (entry P) = entry P 0 0 * det n (entry schur).
Proof. cbn [det]. f_equal. apply det_ext. intros i j Hi Hj. rewrite schur_entry by auto. reflexivity. Qed.
End Schur.
Lemma det_pos n : forall P, square n P -> symmetric n P -> positive_definite n P -> 0 < det n (entry P).
Proof.
  induction n as [|n IH]; intros P SP HS HP; [cbn; lra|]. rewrite det_schur.
  apply Rmult_lt_0_compat; [exact (pivot_pos n P HP)|].
  apply IH; [apply mat_of_square|exact (schur_symmetric n P HS HP)|exact (schur_pd n P HS HP)].
Qed.

(** * All items *)
Section All.
Variables (inverse : rmat -> rmat) (determinant : rmat -> R) (isProper : mnormal -> bool) (store : storage).
Variables (es : rmat -> rvec * rmat) (lam : rvec) (Q : rmat).
Hypothesis Hes : es (findHermiteJacobi 1) = (lam, Q).
Hypothesis Hed : eigendecomposition 1 (findHermiteJacobi 1) lam Q.
Notation good d N := (nondegenerate d (no_mean N) (no_precision N) (no_variance N)).
Hypothesis Hstore : forall d N f g H, good d N -> fst (fst (store f g H N)) (no_mean N) = f (no_mean N).
Notation r := (rule_initialize es 1).

Lemma erase_seq n : erase (seq 0 (S n)) 0 = seq 1 n.
Proof. reflexivity. Qed.
Lemma without_mean d N : good (S d) N -> vsubset (no_mean N) (seq 1 d) = erase (no_mean N) 0.
Proof.
  intros [Lm _]. apply (vec_ext _ _ d).
  - rewrite vsubset_length, seq_length. reflexivity.
  - apply erase_length; auto. lia.
  - intros i Hi. rewrite nth_vsubset by (rewrite seq_length; auto). rewrite seq_nth by auto. rewrite nth_erase.
    unfold up. replace (i <? 0)%nat with false by reflexivity. reflexivity.
Qed.
Lemma up0 i : up 0 i = S i. Proof. reflexivity. Qed.
(** The two marginals. *)
Lemma marginal_good d N A M : (forall A, inverts inverse d A) -> good (S d) N -> square d A ->
  (forall i j, (i < d)%nat -> (j < d)%nat -> entry A i j = entry (no_variance N) (S i) (S j)) ->
  no_mean M = erase (no_mean N) 0 -> let N' := setVariance inverse determinant M A in
  good d N' /\ no_mean N' = erase (no_mean N) 0 /\ det d (entry (no_precision N')) = det d (entry (schur d (no_precision N))).
Proof.
  intros Hinv [Lm [HPV [HS HP]]] SA EA EM N'.
  pose proof (pivot_pos d _ HP) as Hp.
  pose proof (V22_inverse _ _ d 0 ltac:(lia) HPV Hp) as HV.
  assert (HA : are_inverse d A (schur d (no_precision N))).
  { apply (are_inverse_ext _ _ _ _ HV SA). intros i j Hi Hj. rewrite EA by auto.
    rewrite (V22_entry _ _ d 0 ltac:(lia) HPV) by auto. reflexivity. }
  assert (EP : no_precision N' = schur d (no_precision N)).
  { unfold N', setVariance. cbn [no_precision]. destruct (Nat.ltb_spec 0 (length A)) as [L|L].
    - apply Hinv. exact HA.
    - destruct SA as [LA _]. destruct d; [|lia]. destruct A; [reflexivity|discriminate]. }
  split; [|split; [exact EM|rewrite EP; reflexivity]]. unfold nondegenerate.
  rewrite EP. unfold N', setVariance. cbn [no_mean no_variance]. rewrite EM. split.
  - apply erase_length; auto. lia.
  - split; [apply are_inverse_sym; exact HA|]. split; [exact (schur_symmetric d _ HS HP)|exact (schur_pd d _ HS HP)].
Qed.
Lemma dim_mean d : no_mean (normal_dim d) = repeat 0 d.
Proof. reflexivity. Qed.
Lemma without_good d N : (forall A, inverts inverse d A) -> good (S d) N ->
  let N' := normal_without inverse determinant N 0 in
  good d N' /\ no_mean N' = erase (no_mean N) 0 /\ det d (entry (no_precision N')) = det d (entry (schur d (no_precision N))).
Proof.
  intros Hinv G. pose proof G as [Lm [HPV _]]. unfold normal_without, computeMarginal. rewrite Lm, erase_seq.
  apply marginal_good; [exact Hinv|exact G| | |].
  - pose proof (msubset_square (no_variance N) (seq 1 d)) as S. rewrite seq_length in S. exact S.
  - intros i j Hi Hj. rewrite entry_msubset by (rewrite seq_length; auto). rewrite !seq_nth by auto. reflexivity.
  - rewrite seq_length. destruct (Nat.ltb_spec 0 d) as [L|L]; [exact (without_mean d N G)|].
    assert (d = 0)%nat by lia. subst d. cbn. destruct (no_mean N) as [|a [|]]; try discriminate. reflexivity.
Qed.
Lemma integrate_good d N : (forall A, inverts inverse d A) -> good (S d) N ->
  let N' := integrate_item inverse determinant N 0 in good d N' /\ no_mean N' = erase (no_mean N) 0.
Proof.
  intros Hinv G. pose proof G as [Lm [HPV _]]. unfold integrate_item.
  assert (Le : length (getVectorWithout 0 (no_mean N)) = d) by (apply erase_length; auto; lia).
  rewrite Le.
  destruct (marginal_good d N (getMatrixWithout 0 (no_variance N))
    (if (0 <? d)%nat then setMean (normal_dim d) (getVectorWithout 0 (no_mean N)) else normal_dim d) Hinv G) as [A [B _]].
  - exact (V22_square _ _ d 0 ltac:(lia) HPV).
  - intros i j Hi Hj. rewrite (V22_entry _ _ d 0 ltac:(lia) HPV) by auto. reflexivity.
  - destruct (Nat.ltb_spec 0 d) as [L|L]; [reflexivity|].
    assert (d = 0)%nat by lia. subst d. cbn. destruct (no_mean N) as [|a [|]]; try discriminate. reflexivity.
  - split; assumption.
Qed.
Lemma vdot_diff c m d : length c = d -> length m = d -> vdot c (vsub m m) = 0.
Proof.
  intros Lc Lm. rewrite (vdot_sum _ _ d) by (auto using vsub_length).
  transitivity (sumR d (fun _ => 0)); [|apply sumR_zero]. apply sumR_ext. intros i Hi. rewrite (nth_vsub i _ _ d) by auto. ring.
Qed.
Lemma step_value d b : (forall A, inverts inverse d A) -> good (S d) (fb_normal b) -> isProper (fb_normal b) = true ->
  let b' := integrate_belief inverse determinant isProper store r 0 b in
  fb_value b' (no_mean (fb_normal b'))
  = fb_value b (no_mean (fb_normal b)) + ln (sqrt 2 * sqrtPi) - 1 / 2 * ln (entry (no_precision (fb_normal b)) 0 0).
Proof.
  intros Hinv G Hpr b'. pose proof G as [Lm [HPV [HS HP]]]. pose proof (pivot_pos d _ HP) as Hp.
  destruct (without_good d _ Hinv G) as [_ [E1 _]]. destruct (integrate_good d _ Hinv G) as [G2 E2].
  unfold b', integrate_belief. cbn [fb_value fb_normal]. rewrite E1, <- E2.
  rewrite (Hstore d) by exact G2. rewrite E2.
  set (i := make_ifun inverse determinant isProper 0 (fb_value b) (fb_derivative b) (fb_secondDerivative b) (fb_normal b)).
  assert (EN : initializeNormal inverse determinant isProper (fb_normal b) = fb_normal b).
  { unfold initializeNormal. rewrite Hpr. reflexivity. }
  assert (Le : length (erase (no_mean (fb_normal b)) 0) = d) by (apply erase_length; auto; lia).
  pose proof (C27_main inverse determinant isProper 0 d (fb_value b) (fb_derivative b) (fb_secondDerivative b) (fb_normal b)) as C.
  rewrite EN in C. fold i in C.
  specialize (C ltac:(lia) Lm HPV HS Hp (Hinv _) _ Le). destruct C as [c [_ [C1 [C2 C3]]]].
  assert (Em : if_mean2 i = erase (no_mean (fb_normal b)) 0).
  { unfold i, make_ifun. rewrite EN. destruct (if Nat.ltb _ _ then _ else _). reflexivity. }
  assert (Ef : if_function i = fb_value b).
  { unfold i, make_ifun. rewrite EN. destruct (if Nat.ltb _ _ then _ else _). reflexivity. }
  assert (Eo : if_over i = 0%nat).
  { unfold i, make_ifun. rewrite EN. destruct (if Nat.ltb _ _ then _ else _). reflexivity. }
  assert (Ec : findConditionalMean i (erase (no_mean (fb_normal b)) 0) = nth 0 (no_mean (fb_normal b)) 0).
  { destruct C2 as [_ C2]. rewrite Em in C2.
    destruct (Nat.eq_dec d 0) as [->|Hd].
    - destruct (no_mean (fb_normal b)) as [|m0 [|]] eqn:Emean; try discriminate.
      unfold findConditionalMean. cbn [erase length]. cbn [Nat.ltb Nat.leb].
      unfold i, make_ifun. rewrite EN. destruct (if Nat.ltb _ _ then _ else _). cbn [if_mean1]. rewrite Emean. reflexivity.
    - assert (Ed : vdot (if_cross i) (vsub (erase (no_mean (fb_normal b)) 0) (erase (no_mean (fb_normal b)) 0)) = 0).
      { apply (vdot_diff _ _ d); [|exact Le].
        unfold i, make_ifun. rewrite EN.
        pose proof HPV as [_ [[LV RV] _]].
        assert (Hb : (1 <? length (no_variance (fb_normal b)) * length (hd [] (no_variance (fb_normal b))))%nat = true).
        { apply Nat.ltb_lt. rewrite hd_nth, LV, RV by lia. destruct d; [lia|]. cbn. lia. }
        rewrite Hb. cbn [if_cross]. rewrite mvmul_length.
        pose proof (V22_inverse _ _ d 0 ltac:(lia) HPV Hp) as HV. rewrite (Hinv _ _ HV). apply mat_of_square. }
      specialize (C2 Ed). lra. }
  assert (Hs : 0 < if_sigma i) by (rewrite C3; apply sqrt_lt_R0, Rinv_0_lt_compat; exact Hp).
  rewrite (one_point es lam Q Hes Hed i) by exact Hs.
  rewrite Ef, Eo, Ec, (insert_erase 0 _ _ d) by (auto; lia).
  assert (H2 : 0 < sqrt 2) by (apply sqrt_lt_R0; lra).
  assert (HsP : 0 < sqrtPi) by (unfold sqrtPi; lra).
  rewrite ln_mult; [|apply Rmult_lt_0_compat; assumption|exact Hs].
  assert (El : ln (if_sigma i) = - (1 / 2) * ln (entry (no_precision (fb_normal b)) 0 0)).
  { rewrite C3. rewrite <- Rpower_sqrt by (apply Rinv_0_lt_compat; exact Hp). unfold Rpower. rewrite ln_exp, ln_Rinv by exact Hp. field. }
  rewrite El. lra.
Qed.
Lemma Nat_iter_shift k {A} (f : A -> A) x : Nat.iter k f (f x) = Nat.iter (S k) f x.
Proof. induction k as [|k IH]; [reflexivity|]. exact (f_equal f IH). Qed.
Lemma C30_chain d : (forall k A, (k < d)%nat -> inverts inverse k A) -> forall b, good d (fb_normal b) ->
  (forall k, (k < d)%nat -> isProper (Nat.iter k (fun N => normal_without inverse determinant N 0) (fb_normal b)) = true) ->
  fb_value (integrate_all inverse determinant isProper store r d b) []
  = fb_value b (no_mean (fb_normal b)) + INR d * ln (sqrt 2 * sqrtPi) - 1 / 2 * ln (det d (entry (no_precision (fb_normal b)))).
Proof.
  induction d as [|d IH]; intros Hi b G Hpr.
  - cbn [integrate_all det INR]. rewrite ln_1. destruct G as [Lm _]. destruct (no_mean (fb_normal b)); [|discriminate]. lra.
  - assert (Hinv : forall A, inverts inverse d A) by (intros A; apply Hi; lia).
    cbn [integrate_all]. pose proof (step_value d b Hinv G (Hpr 0%nat ltac:(lia))) as V. cbv zeta in V.
    destruct (without_good d _ Hinv G) as [G' [_ Ed]].
    set (b' := integrate_belief inverse determinant isProper store r 0 b) in *.
    assert (En : fb_normal b' = normal_without inverse determinant (fb_normal b) 0) by reflexivity.
    rewrite IH.
    2:{ intros k A Hk. apply Hi. lia. }
    + rewrite V, En, Ed. rewrite (det_schur d (no_precision (fb_normal b))).
      destruct G as [_ [HPV [HS HP]]]. pose proof (pivot_pos d _ HP) as Hp.
      rewrite (ln_mult (entry (no_precision (fb_normal b)) 0 0)); [|exact Hp|].
      2:{ apply det_pos; [apply mat_of_square|exact (schur_symmetric d _ HS HP)|exact (schur_pd d _ HS HP)]. }
      rewrite S_INR. lra.
    + rewrite En. exact G'.
    + intros k Hk. rewrite En. specialize (Hpr (S k) ltac:(lia)). rewrite <- (Nat_iter_shift k) in Hpr. exact Hpr.
Qed.
Lemma C30_main b d : (forall k A, (k < d)%nat -> inverts inverse k A) -> good d (fb_normal b) ->
  (forall k, (k < d)%nat -> isProper (Nat.iter k (fun N => normal_without inverse determinant N 0) (fb_normal b)) = true) ->
  belief_logNormalizingConstant inverse determinant isProper store r b
  = laplace d (fb_value b) (no_mean (fb_normal b)) (no_precision (fb_normal b)) + INR d * ln (sqrtPi / sqrt PI).
Proof.
  intros Hi G Hpr. unfold belief_logNormalizingConstant, laplace. destruct G as [Lm G]. rewrite Lm.
  rewrite (C30_chain d Hi b (conj Lm G) Hpr).
  assert (H2 : 0 < sqrt 2) by (apply sqrt_lt_R0; lra).
  assert (HsP : 0 < sqrtPi) by (unfold sqrtPi; lra).
  pose proof PI_RGT_0 as HPi. pose proof (sqrt_lt_R0 PI HPi) as HsPi.
  assert (E2 : ln (sqrt 2) = 1 / 2 * ln 2) by (rewrite <- Rpower_sqrt by lra; unfold Rpower; rewrite ln_exp; field).
  assert (EPi : ln (sqrt PI) = 1 / 2 * ln PI) by (rewrite <- Rpower_sqrt by lra; unfold Rpower; rewrite ln_exp; field).
  rewrite ln_mult by assumption. rewrite (ln_mult 2 PI) by lra.
  unfold Rdiv at 4. rewrite ln_mult by (auto; apply Rinv_0_lt_compat; exact HsPi). rewrite ln_Rinv by exact HsPi.
  rewrite E2, EPi. field.
Qed.
End All.
