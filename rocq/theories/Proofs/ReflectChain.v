(** C75: integrating over all the items of a normal belief. *)
From Coq Require Import List Reals Lia Lra Arith Bool.
From Verif Require Import Model.Base Model.Mixed Model.Vectors Model.MultiNormal Model.Quadrature Model.IntegratedFunction Model.Margin
  Spec.GLMMSpec Spec.MatrixSpec Spec.HermiteSpec Spec.LaplaceSpec Spec.ReflectSpec
  Proofs.GLMMLemmas Proofs.VectorLemmas Proofs.SumLemmas Proofs.NormalMain Proofs.ConditionalMain Proofs.HermiteMain Proofs.LaplaceMain
  Proofs.LineIntegral Proofs.DensityMain Proofs.ReflectMain Proofs.ReflectStep.
Import ListNotations.
Local Open Scope R_scope.

(** * Completing the square *)
Definition slope d P m x : R := sumR d (fun j => entry P 0 (S j) * (nth j x 0 - nth (S j) m 0)).
Lemma quad_schur d P m x t : symmetric (S d) P -> 0 < entry P 0 0 -> length m = S d -> length x = d ->
  quad (S d) P m (t :: x) = entry P 0 0 * (t - (nth 0 m 0 - slope d P m x / entry P 0 0)) ^ 2 + quad d (schur d P) (erase m 0) x.
Proof.
  intros HS Hp Lm Lx. change (t :: x) with (insert 0 x t). rewrite (quad_insert P d 0 ltac:(lia) HS) by auto.
  set (s := slope d P m x).
  assert (EQ : quad d (schur d P) (erase m 0) x =
    sumR d (fun i => sumR d (fun j => (nth i x 0 - nth (S i) m 0) * entry P (S i) (S j) * (nth j x 0 - nth (S j) m 0))) - s * (s / entry P 0 0)).
  { unfold quad. transitivity (sumR d (fun i => sumR d (fun j => (nth i x 0 - nth (S i) m 0) * entry P (S i) (S j) * (nth j x 0 - nth (S j) m 0))
        - entry P 0 (S i) * (nth i x 0 - nth (S i) m 0) * (s / entry P 0 0))).
    - apply sumR_ext. intros i Hi.
      rewrite (sumR_ext d _ (fun j => (nth i x 0 - nth (S i) m 0) * entry P (S i) (S j) * (nth j x 0 - nth (S j) m 0)
         - (entry P 0 (S i) * (nth i x 0 - nth (S i) m 0) / entry P 0 0) * (entry P 0 (S j) * (nth j x 0 - nth (S j) m 0)))).
      2:{ intros j Hj. rewrite schur_entry by auto. rewrite !nth_erase. change (up 0 i) with (S i). change (up 0 j) with (S j).
          rewrite (HS (S i) 0%nat) by lia. field. lra. }
      rewrite sumR_minus, sumR_scal. fold (slope d P m x). fold s. f_equal. field. lra.
    - rewrite sumR_minus, sumR_scal_r. reflexivity. }
  rewrite EQ. change (up 0) with S. fold (slope d P m x). fold s.
  match goal with |- _ + sumR d ?F = _ => set (S2 := sumR d F) end.
  field. lra.
Qed.

(** * The integral *)
Notation schur := LaplaceMain.schur.
Lemma iterated_ext d : forall g g' v, (forall x, length x = d -> g x = g' x) -> iterated d g v -> iterated d g' v.
Proof.
  induction d as [|d IH]; intros g g' v E H.
  - cbn in *. rewrite <- E; auto.
  - destruct H as (h & H1 & H2). exists h. split; auto. intros x Hx.
    apply (is_line_ext (fun t => g (t :: x))); [|apply H1; auto]. intros t. apply E. cbn. lia.
Qed.
Lemma iterated_normal d : forall P m k, square d P -> symmetric d P -> positive_definite d P -> length m = d ->
  iterated d (fun y => exp (k - quad d P m y / 2)) (exp (k + INR d * ln (sqrt (2 * PI)) - 1 / 2 * ln (det d (entry P)))).
Proof.
  induction d as [|d IH]; intros P m k SP HS HP Lm.
  - cbn. rewrite ln_1. f_equal. unfold quad, sumR. cbn. lra.
  - pose proof (pivot_pos d P HP) as Hp. pose proof PI_RGT_0 as Hpi.
    assert (H2 : 0 < sqrt (2 * PI)) by (apply sqrt_lt_R0; lra). pose proof (sqrt_lt_R0 _ Hp) as Hs.
    assert (Le : length (erase m 0) = d) by (apply erase_length; auto; lia).
    pose proof (IH (schur d P) (erase m 0) (k + ln (sqrt (2 * PI) / sqrt (entry P 0 0))) (mat_of_square d _) (LaplaceMain.schur_symmetric d P HS HP) (LaplaceMain.schur_pd d P HS HP) Le) as I.
    pose proof (det_pos d _ (mat_of_square d _) (LaplaceMain.schur_symmetric d P HS HP) (LaplaceMain.schur_pd d P HS HP)) as Hd.
    replace (exp (k + INR (S d) * ln (sqrt (2 * PI)) - 1 / 2 * ln (det (S d) (entry P)))) with
      (exp (k + ln (sqrt (2 * PI) / sqrt (entry P 0 0)) + INR d * ln (sqrt (2 * PI)) - 1 / 2 * ln (det d (entry (schur d P))))).
    2:{ f_equal. rewrite det_schur. rewrite (ln_mult (entry P 0 0)); [|exact Hp|exact Hd]. rewrite S_INR. unfold Rdiv at 1.
        rewrite (ln_mult (sqrt (2 * PI))), ln_Rinv by auto using Rinv_0_lt_compat.
        assert (E : ln (entry P 0 0) = ln (sqrt (entry P 0 0)) + ln (sqrt (entry P 0 0))) by (rewrite <- ln_mult, sqrt_sqrt by lra; reflexivity).
        rewrite E. field. }
    cbn [iterated]. eexists. split; [|exact I]. intros x Hx. cbn beta.
    pose proof (kernel_line (entry P 0 0) (nth 0 m 0 - slope d P m x / entry P 0 0) Hp) as K.
    apply (is_line_scal _ (exp (k - quad d (schur d P) (erase m 0) x / 2))) in K.
    replace (exp (k + ln (sqrt (2 * PI) / sqrt (entry P 0 0)) - quad d (schur d P) (erase m 0) x / 2))
      with (exp (k - quad d (schur d P) (erase m 0) x / 2) * (sqrt (2 * PI) / sqrt (entry P 0 0))).
    2:{ rewrite <- (exp_ln (sqrt (2 * PI) / sqrt (entry P 0 0))) at 1 by (apply Rdiv_lt_0_compat; assumption). rewrite <- exp_plus. f_equal. lra. }
    refine (is_line_ext _ _ _ _ K). intros t. cbn beta. rewrite <- exp_plus. f_equal. rewrite (quad_schur d P m x t HS Hp Lm Hx). field. lra.
Qed.

Section Chain.
Variables (inverse : rmat -> rmat) (determinant : rmat -> R) (isProper : mnormal -> bool) (store : storage).
Variables (q : nat) (lam : list R) (Q : list (list R)) (es : rmat -> rvec * rmat).
Hypothesis Hed : eigendecomposition q (findHermiteJacobi q) lam Q.
Hypothesis Hq : (0 < q)%nat.
Hypothesis Hes : es (findHermiteJacobi q) = (lam, Q).
Notation r := (rule_initialize es q).
Notation good d N := (nondegenerate d (no_mean N) (no_precision N) (no_variance N)).
Notation lq N d k x := (k - quad d (no_precision N) (no_mean N) x / 2).
Notation without N := (normal_without inverse determinant N 0).
Notation made b := (make_ifun inverse determinant isProper 0 (fb_value b) (fb_derivative b) (fb_secondDerivative b) (fb_normal b)).

Lemma without_precision d N : (forall A, inverts inverse d A) -> good (S d) N -> no_precision (without N) = schur d (no_precision N).
Proof.
  intros Hinv [Lm [HPV [HS HP]]]. pose proof (pivot_pos d _ HP) as Hp.
  pose proof (V22_inverse _ _ d 0 ltac:(lia) HPV Hp) as HV.
  unfold normal_without, computeMarginal. rewrite Lm. change (erase (seq 0 (S d)) 0) with (seq 1 d).
  set (A := msubset (no_variance N) (seq 1 d)).
  assert (SA : square d A) by (pose proof (msubset_square (no_variance N) (seq 1 d)) as SA; rewrite seq_length in SA; exact SA).
  assert (HA : are_inverse d A (schur d (no_precision N))).
  { apply (are_inverse_ext _ _ _ _ HV SA). intros i j Hi Hj. unfold A. rewrite entry_msubset by (rewrite seq_length; auto). rewrite !seq_nth by auto.
    rewrite (V22_entry _ _ d 0 ltac:(lia) HPV) by auto. reflexivity. }
  unfold setVariance. cbn [no_precision]. destruct (Nat.ltb_spec 0 (length A)) as [L|L].
  - apply Hinv. exact HA.
  - destruct SA as [LA _]. destruct d; [|lia]. destruct A; [reflexivity|discriminate].
Qed.

(** * One item *)
Lemma step_any d b k x : (forall A, inverts inverse d A) -> good (S d) (fb_normal b) -> isProper (fb_normal b) = true -> length x = d ->
  (forall y, length y = S d -> fb_value b y <= lq (fb_normal b) (S d) k y) ->
  let N := fb_normal b in
  let k1 := k + ln (sqrt 2 * sqrtPi) - 1 / 2 * ln (entry (no_precision N) 0 0) in
  let s := slope d (no_precision N) (no_mean N) x in
  exists u v, 0 < u /\ if_evaluate (made b) r x <= lq (without N) d k1 x /\
    (s <> 0 -> if_evaluate (made b) r x < lq (without N) d k1 x) /\
    ((exists j, (j < q)%nat /\ fb_value b ((u * nth j lam 0 + v) :: x) < lq N (S d) k ((u * nth j lam 0 + v) :: x)) -> if_evaluate (made b) r x < lq (without N) d k1 x) /\
    ((forall y, length y = S d -> fb_value b y = lq N (S d) k y) -> s = 0 -> if_evaluate (made b) r x = lq (without N) d k1 x).
Proof.
  intros Hinv G Hpr Lx HA N k1 s. pose proof G as [Lm [HPV [HS HP]]]. fold N in Lm, HPV, HS, HP.
  set (P := no_precision N) in *. set (m := no_mean N) in *.
  assert (Hp : 0 < entry P 0 0) by exact (pivot_pos d _ HP).
  destruct (without_good inverse determinant d _ Hinv G) as [_ [EM _]]. fold N m in EM.
  pose proof (without_precision d N Hinv G) as EP. fold P in EP.
  assert (EN : initializeNormal inverse determinant isProper N = N) by (unfold N, initializeNormal; rewrite Hpr; reflexivity).
  set (c := nth 0 m 0 - s / entry P 0 0).
  assert (EQ : forall t, quad (S d) P m (t :: x) = entry P 0 0 * (t - c) ^ 2 + quad d (schur d P) (erase m 0) x) by (intros t; apply quad_schur; auto).
  pose (F := fun y => lq N (S d) k y).
  set (i := made b). set (i' := make_ifun inverse determinant isProper 0 F (fb_derivative b) (fb_secondDerivative b) (fb_normal b)).
  pose proof (C27_main inverse determinant isProper 0 d (fb_value b) (fb_derivative b) (fb_secondDerivative b) (fb_normal b)) as C.
  pose proof (C27_main inverse determinant isProper 0 d F (fb_derivative b) (fb_secondDerivative b) (fb_normal b)) as C'.
  pose proof (made_members inverse determinant isProper 0 d (fb_value b) (fb_derivative b) (fb_secondDerivative b) (fb_normal b)) as M.
  pose proof (made_members inverse determinant isProper 0 d F (fb_derivative b) (fb_secondDerivative b) (fb_normal b)) as M'.
  fold N in C, C', M, M', i, i'. rewrite EN in C, C', M, M'. fold P m in C, C', M, M'. fold i in C, M. fold i' in C', M'.
  specialize (C ltac:(lia) Lm HPV HS Hp (Hinv _) x Lx). specialize (C' ltac:(lia) Lm HPV HS Hp (Hinv _) x Lx).
  specialize (M ltac:(lia) Lm HPV HS Hp (Hinv _)). specialize (M' ltac:(lia) Lm HPV HS Hp (Hinv _)).
  destruct C as [c1 [C1 [C2 [_ C4]]]]. destruct C' as [c2 [D1 [D2 [_ D4]]]].
  destruct M as [M1 [M2 _]]. destruct M' as [N1 [N2 _]].
  assert (Cc : conditional_mean (S d) P m 0 (fun t => insert 0 x t) c).
  { intros t. change (insert 0 x t) with (t :: x). change (insert 0 x c) with (c :: x). rewrite !EQ. ring. }
  apply C1 in Cc as E1. apply D1 in Cc as E2. subst c1 c2.
  assert (Hs : 0 < if_sigma i) by (rewrite C4; apply sqrt_lt_R0, Rinv_0_lt_compat; exact Hp).
  assert (Hs' : 0 < if_sigma i') by (rewrite D4; apply sqrt_lt_R0, Rinv_0_lt_compat; exact Hp).
  assert (Esig : if_sigma i' = if_sigma i) by congruence. assert (Ecen : findConditionalMean i' x = findConditionalMean i x) by congruence.
  assert (H2 : 0 < sqrt 2) by (apply sqrt_lt_R0; lra). assert (HsP : 0 < sqrtPi) by (unfold sqrtPi; lra).
  assert (Es2 : if_sigma i' ^ 2 = / entry P 0 0) by (rewrite D4; apply pow2_sqrt; left; apply Rinv_0_lt_compat; exact Hp).
  set (e := c - nth 0 m 0).
  set (a := 2 * sqrt 2 * e / if_sigma i').
  assert (V' : if_evaluate i' r x = lq (without N) d k1 x + (ln (rule_exp q lam Q a) - a ^ 2 / 4)).
  { rewrite (line_value q lam Q Hed Hq es Hes i' x (k - quad d (schur d P) (erase m 0) x / 2) c e Hs').
    - fold a. rewrite EM, EP. assert (El : ln (sqrt 2 * if_sigma i' * sqrtPi) = ln (sqrt 2 * sqrtPi) - 1 / 2 * ln (entry P 0 0)).
      { replace (sqrt 2 * if_sigma i' * sqrtPi) with (sqrt 2 * sqrtPi * if_sigma i') by ring. rewrite (ln_mult (sqrt 2 * sqrtPi)); [|apply Rmult_lt_0_compat; assumption|exact Hs'].
        rewrite D4. rewrite <- (Rpower_sqrt (/ entry P 0 0)) by (apply Rinv_0_lt_compat; exact Hp). unfold Rpower. rewrite ln_exp, ln_Rinv by exact Hp. field. }
      rewrite El. unfold k1.
      assert (Ea : 2 * e ^ 2 / if_sigma i' ^ 2 = a ^ 2 / 4).
      { unfold a. assert (S2 : sqrt 2 * sqrt 2 = 2) by (apply sqrt_sqrt; lra).
        replace ((2 * sqrt 2 * e / if_sigma i') ^ 2) with (4 * (sqrt 2 * sqrt 2) * e ^ 2 / if_sigma i' ^ 2) by (field; lra). rewrite S2. field. lra. }
      rewrite Ea. lra.
    - rewrite D2. unfold e. ring.
    - intros t. rewrite N1, N2. unfold F. fold P m. change (insert 0 x t) with (t :: x). rewrite EQ, Es2. field. lra. }
  exists (sqrt 2 * if_sigma i), (findConditionalMean i x). split; [apply Rmult_lt_0_compat; assumption|].
  destruct (evaluate_sum q lam Q Hed Hq es Hes i x Hs) as [Ps Ev]. destruct (evaluate_sum q lam Q Hed Hq es Hes i' x Hs') as [Ps' Ev'].
  cbv zeta in Ps, Ev, Ps', Ev'. rewrite Esig, Ecen, N1, N2 in Ps', Ev'. rewrite M1, M2 in Ps, Ev.
  set (t j := sqrt 2 * if_sigma i * nth j lam 0 + findConditionalMean i x) in *.
  assert (TL : forall j, (j < q)%nat -> entry Q 0 j * entry Q 0 j * exp (fb_value b (insert 0 x (t j)) + nth j lam 0 ^ 2) <= entry Q 0 j * entry Q 0 j * exp (F (insert 0 x (t j)) + nth j lam 0 ^ 2)).
  { intros j Hj. apply Rmult_le_compat_l; [left; apply (w_pos q lam Q Hed Hq j Hj)|]. change (insert 0 x (t j)) with (t j :: x).
    destruct (HA (t j :: x) ltac:(cbn; lia)) as [L|L]; [left; apply exp_increasing, Rplus_lt_compat_r; exact L|right; apply (f_equal (fun z => exp (z + nth j lam 0 ^ 2))); exact L]. }
  assert (LE : if_evaluate i r x <= if_evaluate i' r x).
  { rewrite Ev, Ev'. apply Rplus_le_compat_l. apply ln_le'; [exact Ps|]. apply sumR_le. exact TL. }
  pose proof (gap_le q lam Q Hed Hq a) as GL.
  split; [lra|]. split; [|split].
  - intros Ns. assert (Na : a <> 0).
    { intros Z. apply Ns. assert (Ee : e = - (s / entry P 0 0)) by (unfold e, c; ring).
      assert (2 * sqrt 2 * e = 0). { replace (2 * sqrt 2 * e) with (a * if_sigma i') by (unfold a; field; lra). rewrite Z. ring. }
      assert (E0 : e = 0) by nra. rewrite E0 in Ee. assert (s / entry P 0 0 = 0) as Z' by lra.
      replace s with (s / entry P 0 0 * entry P 0 0) by (field; lra). rewrite Z'. ring. }
    pose proof (gap_lt q lam Q Hed Hq a Na). lra.
  - intros (j & Hj & L). assert (if_evaluate i r x < if_evaluate i' r x); [|lra].
    rewrite Ev, Ev'. apply Rplus_lt_compat_l. apply ln_increasing; [exact Ps|]. apply (sumR_lt q _ _ j TL Hj).
    apply Rmult_lt_compat_l; [apply (w_pos q lam Q Hed Hq j Hj)|]. apply exp_increasing. change (insert 0 x (t j)) with (t j :: x). apply Rplus_lt_compat_r. exact L.
  - intros HE Zs. assert (Z : a = 0).
    { unfold a. assert (e = 0) as -> by (unfold e, c; rewrite Zs; field; lra). field. lra. }
    assert (E : if_evaluate i r x = if_evaluate i' r x).
    { rewrite Ev, Ev'. do 2 f_equal. apply sumR_ext. intros j Hj. change (insert 0 x (t j)) with (t j :: x). rewrite HE by (cbn; lia). reflexivity. }
    rewrite E, V', Z, (gap_0 q lam Q Hed Hq). lra.
Qed.

(** * All items *)
Hypothesis Hstore : forall d N f g H x, good d N -> length x = d -> fst (fst (store f g H N)) x = f x.
Notation step b := (integrate_belief inverse determinant isProper store r 0 b).
Lemma step_value_at d b x : (forall A, inverts inverse d A) -> good (S d) (fb_normal b) -> length x = d -> fb_value (step b) x = if_evaluate (made b) r x.
Proof.
  intros Hinv G Lx. destruct (integrate_good inverse determinant d _ Hinv G) as [G2 _].
  unfold integrate_belief. cbn [fb_value]. apply (Hstore d); assumption.
Qed.
Definition bounded d b k : Prop := forall y, length y = d -> fb_value b y <= lq (fb_normal b) d k y.
Definition strict d b k : Prop := (forall y, length y = d -> fb_value b y < lq (fb_normal b) d k y) \/
  exists l, (exists j, (j < d)%nat /\ nth j l 0 <> 0) /\
    forall y, length y = d -> sumR d (fun j => nth j l 0 * (nth j y 0 - nth j (no_mean (fb_normal b)) 0)) <> 0 -> fb_value b y < lq (fb_normal b) d k y.
Notation next N k := (k + ln (sqrt 2 * sqrtPi) - 1 / 2 * ln (entry (no_precision N) 0 0)).
Lemma bounded_step d b k : (forall A, inverts inverse d A) -> good (S d) (fb_normal b) -> isProper (fb_normal b) = true ->
  bounded (S d) b k -> bounded d (step b) (next (fb_normal b) k).
Proof.
  intros Hinv G Hpr B y Ly. rewrite (step_value_at d b y Hinv G Ly).
  destruct (step_any d b k y Hinv G Hpr Ly B) as (u & v & _ & L & _). exact L.
Qed.
Lemma strict_step d b k : (2 <= q)%nat -> (forall A, inverts inverse d A) -> good (S d) (fb_normal b) -> isProper (fb_normal b) = true ->
  bounded (S d) b k -> strict (S d) b k -> strict d (step b) (next (fb_normal b) k).
Proof.
  intros H2 Hinv G Hpr B [H|(l & (j & Hj & Nj) & H)].
  - left. intros y Ly. rewrite (step_value_at d b y Hinv G Ly). destruct (step_any d b k y Hinv G Hpr Ly B) as (u & v & _ & _ & _ & L & _).
    apply L. exists 0%nat. split; [exact Hq|]. apply H. cbn. lia.
  - destruct (Req_dec (nth 0 l 0) 0) as [Z|NZ].
    + right. destruct j as [|j]; [contradiction|]. exists (tl l). split.
      { exists j. split; [lia|]. destruct l as [|z l']; [destruct j; cbn in Nj; contradiction|exact Nj]. }
      intros y Ly Ny. rewrite (step_value_at d b y Hinv G Ly). destruct (step_any d b k y Hinv G Hpr Ly B) as (u & v & _ & _ & _ & L & _).
      apply L. exists 0%nat. split; [exact Hq|]. apply H; [cbn; lia|]. rewrite sumR_S, Z, Rmult_0_l, Rplus_0_l. intros E. apply Ny. refine (eq_trans _ E). clear E.
      destruct (without_good inverse determinant d _ Hinv G) as [_ [EM _]]. cbn [fb_normal integrate_belief]. rewrite EM.
      apply sumR_ext. intros a Ha. rewrite nth_erase. change (up 0 a) with (S a). cbn [nth].
      destruct l as [|z l']; [cbn in Nj; contradiction|]. reflexivity.
    + left. intros y Ly. rewrite (step_value_at d b y Hinv G Ly). destruct (step_any d b k y Hinv G Hpr Ly B) as (u & v & Pu & _ & _ & L & _).
      apply L. set (T := sumR d (fun a => nth (S a) l 0 * (nth a y 0 - nth (S a) (no_mean (fb_normal b)) 0))).
      destruct (node_other q lam Q Hed Hq ((nth 0 (no_mean (fb_normal b)) 0 - T / nth 0 l 0 - v) / u) H2) as (a & Ha & Na).
      exists a. split; [exact Ha|]. apply H; [cbn; lia|]. rewrite sumR_S. cbn [nth]. fold T. intros E. apply Na.
      apply (Rmult_eq_reg_r u); [|lra]. apply (Rmult_eq_reg_r (nth 0 l 0)); [|exact NZ].
      replace ((nth 0 (no_mean (fb_normal b)) 0 - T / nth 0 l 0 - v) / u * u * nth 0 l 0) with (nth 0 (no_mean (fb_normal b)) 0 * nth 0 l 0 - T - v * nth 0 l 0) by (field; split; lra).
      lra.
Qed.
Definition crossed d (P : list (list R)) : Prop := exists i j, (i < d)%nat /\ (j < d)%nat /\ i <> j /\ entry P i j <> 0.
Lemma crossed_step d b k : (forall A, inverts inverse d A) -> good (S d) (fb_normal b) -> isProper (fb_normal b) = true ->
  bounded (S d) b k -> crossed (S d) (no_precision (fb_normal b)) -> strict d (step b) (next (fb_normal b) k) \/ crossed d (no_precision (fb_normal (step b))).
Proof.
  intros Hinv G Hpr B (i & j & Hi & Hj & Nij & Ne). pose proof G as [Lm [HPV [HS HP]]].
  destruct (existsb (fun a => if Req_EM_T (entry (no_precision (fb_normal b)) 0 (S a)) 0 then false else true) (seq 0 d)) eqn:EX.
  - left. right. apply existsb_exists in EX. destruct EX as (a & Ha & Z). apply in_seq in Ha.
    exists (map (fun a => entry (no_precision (fb_normal b)) 0 (S a)) (seq 0 d)).
    assert (EL : forall a, (a < d)%nat -> nth a (map (fun a => entry (no_precision (fb_normal b)) 0 (S a)) (seq 0 d)) 0 = entry (no_precision (fb_normal b)) 0 (S a))
      by (intros a' Ha'; rewrite nth_map_seq by exact Ha'; reflexivity).
    split. { exists a. split; [lia|]. rewrite EL by lia. destruct (Req_EM_T (entry (no_precision (fb_normal b)) 0 (S a)) 0); [discriminate|assumption]. }
    intros y Ly Ny. rewrite (step_value_at d b y Hinv G Ly). destruct (step_any d b k y Hinv G Hpr Ly B) as (u & v & _ & _ & L & _).
    apply L. intros E. apply Ny. refine (eq_trans _ E). clear E. unfold slope. apply sumR_ext. intros a' Ha'. rewrite EL by exact Ha'.
    destruct (without_good inverse determinant d _ Hinv G) as [_ [EM _]]. cbn [fb_normal integrate_belief]. rewrite EM, nth_erase. reflexivity.
  - right. assert (Z : forall a, (a < d)%nat -> entry (no_precision (fb_normal b)) 0 (S a) = 0).
    { intros a Ha. destruct (Req_EM_T (entry (no_precision (fb_normal b)) 0 (S a)) 0) as [|N]; [assumption|]. exfalso.
      assert (existsb (fun a => if Req_EM_T (entry (no_precision (fb_normal b)) 0 (S a)) 0 then false else true) (seq 0 d) = true); [|congruence].
      apply existsb_exists. exists a. split; [apply in_seq; lia|]. destruct (Req_EM_T (entry (no_precision (fb_normal b)) 0 (S a)) 0); [contradiction|reflexivity]. }
    destruct i as [|i]. { destruct j as [|j]; [lia|]. exfalso. apply Ne, Z. lia. }
    destruct j as [|j]. { exfalso. apply Ne. rewrite (HS (S i) 0%nat) by lia. apply Z. lia. }
    exists i, j. split; [lia|]. split; [lia|]. split; [lia|]. change (fb_normal (step b)) with (without (fb_normal b)).
    rewrite (without_precision d _ Hinv G), schur_entry by lia. rewrite (Z j) by lia. unfold Rdiv. rewrite Rmult_0_r, Rmult_0_l, Rminus_0_r. exact Ne.
Qed.
Definition total d N k : R := k + INR d * ln (sqrt 2 * sqrtPi) - 1 / 2 * ln (det d (entry (no_precision N))).
Lemma total_step d N k : (forall A, inverts inverse d A) -> good (S d) N -> total d (without N) (next N k) = total (S d) N k.
Proof.
  intros Hinv G. unfold total. rewrite (without_precision d _ Hinv G), det_schur. destruct G as [_ [_ [HS HP]]].
  pose proof (pivot_pos d _ HP) as Hp. rewrite (ln_mult (entry (no_precision N) 0 0)); [rewrite S_INR; lra|exact Hp|].
  apply det_pos; [apply mat_of_square|exact (schur_symmetric d _ HS HP)|exact (schur_pd d _ HS HP)].
Qed.
Lemma total_0 N k : total 0 N k = k.
Proof. unfold total. cbn [INR det]. rewrite ln_1. lra. Qed.
Lemma quad_0 P m : quad 0 P m [] = 0. Proof. reflexivity. Qed.
Notation proper d N := (forall k, (k < d)%nat -> isProper (Nat.iter k (fun M => normal_without inverse determinant M 0) N) = true).
Lemma proper_step d N : proper (S d) N -> proper d (without N).
Proof. intros H k Hk. rewrite (Nat_iter_shift k (fun M => normal_without inverse determinant M 0) N). apply H. lia. Qed.
Notation all d b := (fb_value (integrate_all inverse determinant isProper store r d b) []).
Lemma chain_bounded d : (forall k A, (k < d)%nat -> inverts inverse k A) -> forall b k, good d (fb_normal b) -> proper d (fb_normal b) ->
  bounded d b k -> all d b <= total d (fb_normal b) k.
Proof.
  induction d as [|d IH]; intros Hi b k G Hpr B.
  - cbn [integrate_all]. rewrite total_0. specialize (B [] eq_refl). rewrite quad_0 in B. lra.
  - assert (Hinv : forall A, inverts inverse d A) by (intros A; apply Hi; lia). cbn [integrate_all].
    rewrite <- (total_step d _ _ Hinv G). apply (IH ltac:(intros; apply Hi; lia) (step b)).
    + exact (proj1 (without_good inverse determinant d _ Hinv G)).
    + exact (proper_step d _ Hpr).
    + apply bounded_step; auto. exact (Hpr 0%nat ltac:(lia)).
Qed.
Lemma chain_strict d : (2 <= q)%nat -> (forall k A, (k < d)%nat -> inverts inverse k A) -> forall b k, good d (fb_normal b) -> proper d (fb_normal b) ->
  bounded d b k -> strict d b k -> all d b < total d (fb_normal b) k.
Proof.
  intros H2. induction d as [|d IH]; intros Hi b k G Hpr B ST.
  - cbn [integrate_all]. rewrite total_0. destruct ST as [ST|(l & (j & Hj & _) & _)]; [|lia]. specialize (ST [] eq_refl). rewrite quad_0 in ST. lra.
  - assert (Hinv : forall A, inverts inverse d A) by (intros A; apply Hi; lia). cbn [integrate_all].
    rewrite <- (total_step d _ _ Hinv G). apply (IH ltac:(intros; apply Hi; lia) (step b)).
    + exact (proj1 (without_good inverse determinant d _ Hinv G)).
    + exact (proper_step d _ Hpr).
    + apply bounded_step; auto. exact (Hpr 0%nat ltac:(lia)).
    + apply strict_step; auto. exact (Hpr 0%nat ltac:(lia)).
Qed.
Lemma chain_crossed d : (2 <= q)%nat -> (forall k A, (k < d)%nat -> inverts inverse k A) -> forall b k, good d (fb_normal b) -> proper d (fb_normal b) ->
  bounded d b k -> crossed d (no_precision (fb_normal b)) -> all d b < total d (fb_normal b) k.
Proof.
  intros H2. induction d as [|d IH]; intros Hi b k G Hpr B CR.
  - destruct CR as (i & j & Hi0 & _). lia.
  - assert (Hinv : forall A, inverts inverse d A) by (intros A; apply Hi; lia). cbn [integrate_all].
    rewrite <- (total_step d _ _ Hinv G).
    pose proof (proj1 (without_good inverse determinant d _ Hinv G)) as G'.
    pose proof (bounded_step d b k Hinv G (Hpr 0%nat ltac:(lia)) B) as B'.
    destruct (crossed_step d b k Hinv G (Hpr 0%nat ltac:(lia)) B CR) as [ST|CR'].
    + apply (chain_strict d H2 ltac:(intros; apply Hi; lia) (step b)); auto. exact (proper_step d _ Hpr).
    + apply (IH ltac:(intros; apply Hi; lia) (step b)); auto. exact (proper_step d _ Hpr).
Qed.
Lemma chain_diagonal d : (forall k A, (k < d)%nat -> inverts inverse k A) -> forall b k, good d (fb_normal b) -> proper d (fb_normal b) ->
  (forall y, length y = d -> fb_value b y = lq (fb_normal b) d k y) ->
  (forall i j, (i < d)%nat -> (j < d)%nat -> i <> j -> entry (no_precision (fb_normal b)) i j = 0) -> all d b = total d (fb_normal b) k.
Proof.
  induction d as [|d IH]; intros Hi b k G Hpr E D.
  - cbn [integrate_all]. rewrite total_0. specialize (E [] eq_refl). rewrite quad_0 in E. lra.
  - assert (Hinv : forall A, inverts inverse d A) by (intros A; apply Hi; lia). cbn [integrate_all].
    rewrite <- (total_step d _ _ Hinv G). apply (IH ltac:(intros; apply Hi; lia) (step b)).
    + exact (proj1 (without_good inverse determinant d _ Hinv G)).
    + exact (proper_step d _ Hpr).
    + intros y Ly. rewrite (step_value_at d b y Hinv G Ly).
      destruct (step_any d b k y Hinv G (Hpr 0%nat ltac:(lia)) Ly ltac:(intros z Lz; rewrite E by exact Lz; apply Rle_refl)) as (u & v & _ & _ & _ & _ & L).
      apply L; [exact E|]. unfold slope. transitivity (sumR d (fun _ => 0)); [|apply sumR_zero]. apply sumR_ext. intros a Ha. rewrite D by lia. ring.
    + intros i j H1 H2 Nij. change (fb_normal (step b)) with (without (fb_normal b)). rewrite (without_precision d _ Hinv G), schur_entry by assumption.
      rewrite (D (S i) (S j)), (D (S i) 0%nat) by lia. unfold Rdiv. ring.
Qed.

Lemma total_integral d N k :
  total d N k = k + INR d * ln (sqrt (2 * PI)) - 1 / 2 * ln (det d (entry (no_precision N))) + INR d * ln (sqrtPi / sqrt PI).
Proof.
  unfold total.
  assert (H2 : 0 < sqrt 2) by (apply sqrt_lt_R0; lra).
  assert (HsP : 0 < sqrtPi) by (unfold sqrtPi; lra).
  pose proof PI_RGT_0 as HPi. pose proof (sqrt_lt_R0 PI HPi) as HsPi.
  rewrite (ln_mult (sqrt 2)) by assumption. rewrite (sqrt_mult 2 PI) by lra. rewrite (ln_mult (sqrt 2)) by assumption.
  unfold Rdiv at 3. rewrite (ln_mult sqrtPi) by (auto; apply Rinv_0_lt_compat; exact HsPi). rewrite ln_Rinv by exact HsPi. lra.
Qed.
Lemma C75_chain b d k : (forall j A, (j < d)%nat -> inverts inverse j A) -> good d (fb_normal b) -> proper d (fb_normal b) ->
  (forall y, length y = d -> fb_value b y = lq (fb_normal b) d k y) ->
  exists I, iterated d (fun y => exp (fb_value b y)) I /\ 0 < I /\
  let exact := ln I + INR d * ln (sqrtPi / sqrt PI) in
  let found := belief_logNormalizingConstant inverse determinant isProper store r b in
  found <= exact /\
  ((2 <= q)%nat -> (found = exact <-> forall i j, (i < d)%nat -> (j < d)%nat -> i <> j -> entry (no_precision (fb_normal b)) i j = 0)).
Proof.
  intros Hi G Hpr E. pose proof G as [Lm [HPV [HS HP]]].
  exists (exp (k + INR d * ln (sqrt (2 * PI)) - 1 / 2 * ln (det d (entry (no_precision (fb_normal b)))))).
  split; [|split; [apply exp_pos|]].
  { eapply iterated_ext; [|apply (iterated_normal d (no_precision (fb_normal b)) (no_mean (fb_normal b)) k); auto; apply HPV]. intros x Lx. cbv beta. rewrite E by exact Lx. reflexivity. }
  rewrite ln_exp. intros ex found.
  assert (EX : ex = total d (fb_normal b) k) by (symmetry; apply total_integral).
  assert (EF : found = all d b) by (unfold found, belief_logNormalizingConstant; rewrite Lm; reflexivity).
  assert (B : bounded d b k) by (intros y Ly; rewrite E by exact Ly; apply Rle_refl).
  rewrite EX, EF. split; [exact (chain_bounded d Hi b k G Hpr B)|]. intros H2. split.
  - intros EQ i j H1 H3 Nij. destruct (Req_dec (entry (no_precision (fb_normal b)) i j) 0) as [|Ne]; [assumption|]. exfalso.
    pose proof (chain_crossed d H2 Hi b k G Hpr B ltac:(exists i, j; auto)). lra.
  - intros D. exact (chain_diagonal d Hi b k G Hpr E D).
Qed.
End Chain.
