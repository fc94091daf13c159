(** Offsets. *)
From Coq Require Import String List ZArith Bool Arith Lia Reals Lra.
From Coquelicot Require Import Coquelicot.
From Verif Require Import Model.Base Model.Family Model.GLMM Model.SplitFrame Model.Vectors Model.Mixed Model.MultiNormal
  Model.NormalSig Model.ClusterGraph Model.Frames Model.IS Model.HOL Model.LfunSR Model.Offset Spec.Numbers Spec.FamilySpec Spec.GLMMSpec Spec.SplitSpec
  Spec.FramesSpec Spec.ISSpec Spec.HOLSpec
  Spec.BeliefSpec Spec.IntegralSpec Spec.TreeSpec Spec.MixedSpec Spec.DensitySpec Spec.TotalSpec Spec.LfunSpec Spec.LogSum Spec.Toy Spec.OffsetSpec
  Proofs.FamilyLemmas Proofs.FamilyMain Proofs.GLMMLemmas Proofs.ListLemmas Proofs.SumLemmas Proofs.SplitMain Proofs.ISMain Proofs.ISEstimate Proofs.HOLLemmas Proofs.HOLMain Proofs.HOLCases
  Proofs.MessageLemmas Proofs.CalibLemmas Proofs.DensityJoint Proofs.JointCases Proofs.TotalMain Proofs.LfunMain Proofs.LfunCases.
From Verif Require Spec.MatrixSpec.
Import ListNotations.
Local Open Scope R_scope.

Lemma offset_density_zero P fr o beta theta w : no_offset o -> offset_density P fr o beta theta w = joint_density P fr beta theta w.
Proof.
  intros H. unfold offset_density, joint_density, factor_loglik. cbv zeta. f_equal. f_equal. apply map_ext. intros k. now rewrite H, Rplus_0_r.
Qed.
Lemma offset_log_joint_zero n f dev m o y w beta theta u : no_offset o -> offset_log_joint n f dev m o y w beta theta u = log_joint n f dev m y w beta theta u.
Proof.
  intros H. unfold offset_log_joint, log_joint. do 3 f_equal. apply sumR_ext. intros k _. now rewrite H, Rplus_0_r.
Qed.
Lemma offset_log_density_zero n P m o y w beta theta u : no_offset o -> offset_log_density n P m o y w beta theta u = log_density n P m y w beta theta u.
Proof.
  intros H. unfold offset_log_density, log_density. f_equal. f_equal. apply map_ext. intros k. now rewrite H, Rplus_0_r.
Qed.

Theorem C69_sequential_main : forall inverse determinant isnormal T scope eval deriv deriv2 integral, determinants 1 determinant ->
  forall f m l P nSL s, let fr := of_frame f in regular fr -> no_empty fr -> (1 <= length (cs_cols (fr_Zt _ fr)))%nat -> (1 <= m)%nat ->
  (forall i, In i (fr_Lind _ fr) -> (1 <= i <= Z.of_nat m)%Z) -> inverse_link l P -> no_offset (of_offset f) ->
  offset_find_lfun_SR inverse determinant isnormal T scope eval deriv deriv2 integral f m "binomial" (link_name l) nSL = Ok s ->
  forall laplace pars v, lfun_SR inverse determinant isnormal T scope eval deriv deriv2 integral laplace s pars = Ok v ->
  let S := sr_sig inverse determinant isnormal T scope eval deriv deriv2 integral
             (GLMM.mkParams Rnum (firstn m pars) (skipn m pars) (mkFamily l Binomial)) in
  forall LI, exact_integral S LI -> fubini S LI ->
  forall w, v = INR (cs_rows (fr_Zt _ fr)) * (ln (sqrt (2 * PI)) - logSqrtTwoPi) +
    iterated S LI (effects fr) (offset_density P fr (of_offset f) (skipn m pars) (firstn m pars)) w.
Proof.
  intros inverse determinant isnormal T scope eval deriv deriv2 integral Det f m l P nSL s fr Reg Ne H1 Hm HL IL NO E laplace pars v Ev S LI X Fb w.
  destruct (C56_main inverse determinant isnormal T scope eval deriv deriv2 integral Det fr m l P nSL s Reg Ne H1 Hm HL IL E laplace pars v Ev) as (_ & _ & G).
  etransitivity; [exact (G LI X Fb w)|]. f_equal. apply (iterated_ext S LI (ei_ext _ _ X)). intros w'. symmetry. now apply offset_density_zero.
Qed.

Definition contests_offset : with_offset (frame Rnum) := mkOffset contests (Some [1; 0; 0]).

Lemma contests_run0 : exists s v, node_setup two_nodes contests 1 "binomial" "logit" 3 = Ok s /\
  node_lfun two_nodes (contests_approx (2 * v)) s [0; 0] = Ok v.
Proof.
  destruct contests_regular as [Reg Ne].
  pose proof contests_setup as Hs. destruct (node_setup two_nodes contests 1 "binomial" "logit" 3) as [s|e| |] eqn:Es; try discriminate. clear Hs.
  exists s.
  destruct (C57_lfun_main inv_all det_small (fun _ => true) grid fst snd zeros zeros2 (node_sum two_nodes) contests 1 Logit 3 s Reg Ne)
    with (pars := [0; 0]) (mean := [0; 0; 0]) (prec := fun i j : Z => if Z.eqb i j then 2 else 1) as [_ G].
  - cbn. lia.
  - lia.
  - intros i [<-|[<-|[<-|[]]]]; lia.
  - exact Es.
  - intros f d d2 k n items b E. injection E as <-. reflexivity.
  - destruct G as [(v & Hv)|((x & H) & _)]; [apply node_exact; apply nodes_ok|reflexivity|reflexivity| |discriminate].
    exists v. split; [reflexivity|]. apply (Hv (contests_approx (2 * v)) (2 * v) eq_refl). right. field.
Qed.

Lemma sum_zeros l : (forall x, In x l -> x = 0) -> fold_right Rplus 0 l = 0.
Proof. induction l as [|a l IH]; intros H; [reflexivity|]. cbn [fold_right]. rewrite IH by (intros x Hx; apply H; now right). rewrite (H a) by now left. ring. Qed.
Lemma nth_zero k : nth k [0] 0 = 0.
Proof. destruct k as [|[|k]]; reflexivity. Qed.
Lemma sumR_zeros n f : (forall k, f k = 0) -> sumR n f = 0.
Proof. intros H. unfold sumR. apply sum_zeros. intros x Hx. apply in_map_iff in Hx. destruct Hx as (k & <- & _). apply H. Qed.
Lemma zero_eta d x k : eta d [0] [0] x k = 0.
Proof.
  unfold eta.
  assert (L : forall r c, Lam d [0] r c = 0).
  { intros r c. unfold Lam. apply sum_zeros. intros a Ha. apply in_map_iff in Ha. destruct Ha as (pi & <- & _). apply nth_zero. }
  rewrite !sumR_zeros; [ring| |].
  - intros r. unfold LZ. rewrite sumR_zeros; [ring|]. intros j. rewrite L. ring.
  - intros j. rewrite nth_zero. ring.
Qed.

Lemma logistic_lt a b : a < b -> logistic a < logistic b.
Proof.
  intros H. unfold logistic. pose proof (exp_pos (- a)). pose proof (exp_pos (- b)). pose proof (exp_increasing (- b) (- a) ltac:(lra)).
  apply Rinv_lt_contravar; [apply Rmult_lt_0_compat|]; lra.
Qed.
Lemma logistic_inside : tiny < logistic 0 < 1 - tiny /\ tiny < logistic 1 < 1 - tiny.
Proof.
  pose proof (logistic_lt 0 1 ltac:(lra)) as L. assert (L0 : logistic 0 = 1 / 2) by (unfold logistic; rewrite Ropp_0, exp_0; field).
  assert (L1 : logistic 1 < 1 - tiny).
  { unfold logistic, tiny. assert (exp (- (1)) >= 1 / 10).
    { pose proof exp_le_3. rewrite exp_Ropp. apply Rle_ge. pose proof (exp_pos 1). apply Rle_trans with (/ 3); [lra|]. apply Rinv_le_contravar; lra. }
    apply Rle_lt_trans with (/ (11 / 10)); [apply Rinv_le_contravar; lra|]. lra. }
  rewrite L0 in *. unfold tiny in *. lra.
Qed.
Lemma clip_id p : tiny < p < 1 - tiny -> clip p = p.
Proof. intros H. unfold clip. rewrite Rmin_left by lra. apply Rmax_right. lra. Qed.

Lemma contests_density w : offset_density logistic contests (Some [1; 0; 0]) [0] [0] w =
  (ln (logistic 1) - ln (logistic 0)) + joint_density logistic contests [0] [0] w.
Proof.
  unfold offset_density, joint_density, factor_loglik. cbv zeta. 
  change (gd_numObs _ (whole contests)) with 3%nat. change (gd_response _ (whole contests)) with [1; 0; 1]. change (gd_weights _ (whole contests)) with [1; 1; 1].
  destruct logistic_inside as [I0 I1].
  cbn [seq map]. rewrite !zero_eta. unfold offset_at. cbn [nth]. rewrite !Rplus_0_r, !Rplus_0_l, (clip_id _ I0), (clip_id _ I1). cbn [loglik]. ring.
Qed.

Theorem C69_sequential_refuted_main : exists f m inverse determinant isnormal T scope eval deriv deriv2 integral (LI : (R -> R) -> R) s laplace pars v (w : Z -> R),
  let fr := of_frame f in regular fr /\ no_empty fr /\ determinants 1 determinant /\
  option_map (@length R) (of_offset f) = Some (length (cs_cols (fr_Zt _ fr))) /\
  offset_find_lfun_SR inverse determinant isnormal T scope eval deriv deriv2 integral f m "binomial" "logit" 3 = Ok s /\
  lfun_SR inverse determinant isnormal T scope eval deriv deriv2 integral laplace s pars = Ok v /\
  let S := sr_sig inverse determinant isnormal T scope eval deriv deriv2 integral
             (GLMM.mkParams Rnum (firstn m pars) (skipn m pars) (mkFamily Logit Binomial)) in
  exact_integral S LI /\ fubini S LI /\
  v < INR (cs_rows (fr_Zt _ fr)) * (ln (sqrt (2 * PI)) - logSqrtTwoPi) +
    iterated S LI (effects fr) (offset_density logistic fr (of_offset f) (skipn m pars) (firstn m pars)) w.
Proof.
  destruct contests_run0 as (s & v & Es & Ev). destruct contests_regular as [Reg Ne].
  exists contests_offset, 1%nat, inv_all, det_small, (fun _ => true), grid, fst, snd, zeros, zeros2, (node_sum two_nodes), (logsum two_nodes), s, (contests_approx (2 * v)), [0; 0], v, (fun _ => 0).
  cbn [of_frame of_offset contests_offset].
  destruct (node_exact two_nodes (GLMM.mkParams Rnum (firstn 1 [0; 0]) (skipn 1 [0; 0]) (mkFamily Logit Binomial))) as (X & Fb & _); [apply nodes_ok|apply nodes_ok|].
  split; [exact Reg|]. split; [exact Ne|]. split; [exact det_small_1|]. split; [reflexivity|]. split; [exact Es|]. split; [exact Ev|].
  split; [exact X|]. split; [exact Fb|].
  destruct (C56_main inv_all det_small (fun _ => true) grid fst snd zeros zeros2 (node_sum two_nodes) det_small_1 contests 1 Logit logistic 3 s Reg Ne) with (laplace := contests_approx (2 * v)) (pars := [0; 0]) (v := v) as (_ & _ & G).
  - cbn. lia.
  - lia.
  - intros i [<-|[<-|[<-|[]]]]; lia.
  - left. split; [reflexivity|]. reflexivity.
  - exact Es.
  - exact Ev.
  - pose proof (G (logsum two_nodes) X Fb (fun _ => 0)) as E. cbn [firstn skipn] in *.
    match type of E with v = ?a => enough (Q : v < (ln (logistic 1) - ln (logistic 0)) + a) end.
    + eapply Rlt_le_trans; [exact Q|]. right. 
      match goal with |- ?c + (?k + ?I) = ?k' + ?J => enough (J = c + I) as -> by ring end.
      etransitivity; [apply (iterated_ext _ _ (ei_ext _ _ X)); intros w'; exact (contests_density w')|].
      exact (iterated_shift _ _ X (fun _ => ln (logistic 1) - ln (logistic 0)) (joint_density logistic contests [0] [0]) (effects contests) (fun _ _ _ _ => eq_refl) (fun _ => 0)).
    + rewrite <- E. pose proof (logistic_lt 0 1 ltac:(lra)) as L. destruct logistic_inside as [I0 I1]. unfold tiny in I0. pose proof (ln_increasing (logistic 0) (logistic 1) ltac:(lra) L). lra.
Qed.

Theorem C69_importance_main : forall fam n f r y w theta beta, fits n (of_frame f) r y w theta beta -> no_offset (of_offset f) ->
  forall nIS u, (0 < nIS)%nat -> sized (nrandom (of_frame f)) nIS u ->
  offset_find_log_integrand fam (theta ++ beta) f r nIS u =
  Ok (map (fun j => offset_log_joint n (linkinv fam) (dev_resids fam) (of_frame f) (of_offset f) y w beta theta (draw u j)) (seq 0 nIS)).
Proof.
  intros fam n f r y w theta beta F NO nIS u HN SU. unfold offset_find_log_integrand.
  rewrite (C44_integrand_main fam n (of_frame f) r y w theta beta F nIS u HN SU). f_equal. apply map_ext. intros j. symmetry. now apply offset_log_joint_zero.
Qed.

Theorem C69_importance_refuted_main : exists n f r y w theta beta u v,
  fits n (of_frame f) r y w theta beta /\ option_map (@length R) (of_offset f) = Some n /\ sized (nrandom (of_frame f)) 1 u /\
  offset_find_log_integrand (r_binomial 0 Logit) (theta ++ beta) f r 1 u = Ok [v] /\
  offset_log_joint n (linkinv (r_binomial 0 Logit)) (dev_resids (r_binomial 0 Logit)) (of_frame f) (of_offset f) y w beta theta (draw u 0) < v.
Proof.
  exists 1%nat, (mkOffset case_h (Some [1])), case_hr, [0], [1], [1], [0], [[0]]. eexists. cbn [of_frame of_offset].
  assert (SZ : sized (nrandom case_h) 1 [[0]]) by (split; [reflexivity|intros row [<-|[]]; reflexivity]).
  split; [apply case_h_fits|]. split; [reflexivity|]. split; [exact SZ|].
  split; [exact (C44_integrand_main (r_binomial 0 Logit) 1 case_h case_hr [0] [1] [1] [0] (case_h_fits 0) 1 [[0]] ltac:(lia) SZ)|].
  unfold offset_log_joint, log_joint. change (draw [[0]] 0) with [0]. rewrite !sumR_S. unfold sumR. cbn [seq map fold_right]. rewrite case_h_predictor.
  unfold offset_at. cbn [nth r_binomial linkinv dev_resids].
  replace (0 + 0 + 1) with 1 by ring. replace (0 + 0) with 0 by ring.
  apply Rplus_lt_compat_r. 
  assert (L : forall x, -30 <= x <= 30 -> logit_linkinv x = exp x / (1 + exp x)).
  { intros x Hx. unfold logit_linkinv, Rltb. destruct (Rlt_dec x (-30)); [lra|]. destruct (Rlt_dec 30 x); [lra|]. reflexivity. }
  rewrite !L by lra. unfold binomial_dev, y_log_y, Reqb. destruct (Req_EM_T 0 0) as [_|]; [|congruence].
  destruct (Req_EM_T (1 - 0) 0); [lra|]. rewrite exp_0.
  assert (A : ln ((1 - 0) / (1 - 1 / (1 + 1))) < ln ((1 - 0) / (1 - exp 1 / (1 + exp 1)))).
  { pose proof (exp_ineq1 1 ltac:(lra)). replace ((1 - 0) / (1 - 1 / (1 + 1))) with 2 by field.
    replace ((1 - 0) / (1 - exp 1 / (1 + exp 1))) with (1 + exp 1) by (field; lra). apply ln_increasing; lra. }
  lra.
Qed.

(** exp(- ln 3) *)
Definition eta3 : R := - ln 3.
Lemma exp_eta3 : exp eta3 = / 3.
Proof. unfold eta3. rewrite exp_Ropp, exp_ln by lra. reflexivity. Qed.
Lemma exp_eta32 : exp (2 * eta3) = (/ 3) ^ 2.
Proof. replace (2 * eta3) with (eta3 + eta3) by ring. rewrite exp_plus, exp_eta3. ring. Qed.
Lemma exp_eta33 : exp (3 * eta3) = (/ 3) ^ 3.
Proof. replace (3 * eta3) with (eta3 + eta3 + eta3) by ring. rewrite !exp_plus, exp_eta3. ring. Qed.
Ltac pows := repeat match goal with |- context [Pos.to_nat ?p] => let n := eval compute in (Pos.to_nat p) in change (Pos.to_nat p) with n end.
Lemma means3 : mn0 Logit eta3 = 1 / 4 /\ mn1 Logit eta3 = 3 / 16 /\ mn2 Logit eta3 = 3 / 32 /\ mn3 Logit eta3 = - (3 / 128) /\ mn4 Logit eta3 = - (15 / 128).
Proof.
  unfold mn0, mn1, mn2, mn3, mn4, logit_mean, logit_mean1, logit_mean2, logit_mean3, logit_mean4. cbv zeta.
  cbn [nZ nadd nsub nmul ndiv nopp nexp npow Rnum N]. unfold powerRZ. pows.
  rewrite exp_eta32, exp_eta33, exp_eta3. repeat split; field; lra.
Qed.
Lemma means0 : mn0 Logit 0 = 1 / 2 /\ mn1 Logit 0 = 1 / 4 /\ mn2 Logit 0 = 0 /\ mn3 Logit 0 = - (1 / 8) /\ mn4 Logit 0 = 0.
Proof.
  unfold mn0, mn1, mn2, mn3, mn4, logit_mean, logit_mean1, logit_mean2, logit_mean3, logit_mean4. cbv zeta.
  cbn [nZ nadd nsub nmul ndiv nopp nexp npow Rnum N]. unfold powerRZ. pows.
  rewrite !Rmult_0_r, exp_0. repeat split; field; lra.
Qed.
Lemma entries0 : entry Logit 1 0 1 0 = - (1 / 2) /\ entry Logit 2 0 1 0 = - (1 / 4) /\ entry Logit 3 0 1 0 = 0 /\ entry Logit 4 0 1 0 = 1 / 8.
Proof.
  destruct means0 as [M0 [M1 [M2 [M3 M4]]]]. unfold entry, faa. rewrite M0, M1, M2, M3, M4. unfold binomial_d1, binomial_d2, binomial_d3, binomial_d4.
  cbn [nZ nadd nsub nmul ndiv nopp npow Rnum N]. unfold powerRZ. pows. repeat split; field; lra.
Qed.
Lemma entries3 : entry_c Logit 3 0 1 eta3 = - (3 / 32) /\ entry_c Logit 4 0 1 eta3 = 3 / 128.
Proof.
  destruct means3 as [M0 [M1 [M2 [M3 M4]]]]. rewrite !entry_unclipped by (rewrite M0; unfold tiny; lra). unfold entry, faa. rewrite M0, M1, M2, M3, M4. unfold binomial_d1, binomial_d2, binomial_d3, binomial_d4.
  cbn [nZ nadd nsub nmul ndiv nopp npow Rnum N]. unfold powerRZ. pows. repeat split; field; lra.
Qed.

Theorem C69_second_order_main : forall solve familyName linkName l P n f r y w theta beta H G u_hat,
  make_family familyName linkName = Ok (mkFamily l Binomial) -> inverse_link l P -> let m := of_frame f in fits n m r y w theta beta ->
  no_offset (of_offset f) ->
  solves solve (nrandom m) n H -> MatrixSpec.are_inverse (nrandom m) H G -> length u_hat = nrandom m ->
  (forall k, (k < n)%nat -> tiny < P (predictor m beta theta u_hat k) < 1 - tiny) ->
  forall f1 f2 f3 f4, derivatives4 (nrandom m) (fun u => - offset_log_density n P m (of_offset f) y w beta theta u) f1 f2 f3 f4 ->
  offset_find_epsilon_1 solve familyName linkName (theta ++ beta) f r u_hat H =
  Ok (second_order (nrandom m) (at_ G) (fun i j k => f3 i j k u_hat) (fun i j k l => f4 i j k l u_hat)).
Proof.
  intros solve familyName linkName l P n f r y w theta beta H G u_hat MF IL m F NO SV IV LU IN f1 f2 f3 f4 D.
  destruct (C52_second_order_main solve familyName linkName l P n m r y w theta beta H G u_hat MF IL F SV IV LU IN) as [_ K].
  apply (K f1 f2 f3 f4).
  destruct D as [D1 D2 D3 D4]. constructor; [|exact D2|exact D3|exact D4].
  intros i u Hi Hu. unfold is_partial_n. eapply is_derive_n_ext; [|exact (D1 i u Hi Hu)]. intros t. cbn beta. now rewrite offset_log_density_zero.
Qed.

Theorem C69_second_order_refuted_main : exists solve n f r y w theta beta H G u_hat f1 f2 f3 f4, let m := of_frame f in
  fits n m r y w theta beta /\ option_map (@length R) (of_offset f) = Some n /\ solves solve (nrandom m) n H /\ MatrixSpec.are_inverse (nrandom m) H G /\ length u_hat = nrandom m /\
  derivatives4 (nrandom m) (fun u => - offset_log_density n logistic m (of_offset f) y w beta theta u) f1 f2 f3 f4 /\
  (forall i, (i < nrandom m)%nat -> f1 i u_hat = 0) /\ (forall i j, (i < nrandom m)%nat -> (j < nrandom m)%nat -> f2 i j u_hat = at_ H i j) /\
  exists v, offset_find_epsilon_1 solve "binomial" "logit" (theta ++ beta) f r u_hat H = Ok v /\
    v < second_order (nrandom m) (at_ G) (fun i j k => f3 i j k u_hat) (fun i j k l => f4 i j k l u_hat) / 2.
Proof.
  set (b := 1 / 2 - ln 3). set (c := b + ln 3). pose proof (case_h_fits b) as F. pose proof (case_h_fits c) as Fc.
  pose proof (tower_g Logit logistic 1 case_h case_hr [0] [1] [1] [c] (or_introl (conj eq_refl (fun t => eq_refl))) Fc) as T.
  set (uh := [- (1 / 2)]).
  assert (PE : predictor case_h [c] [1] uh 0 = 0) by (unfold uh; rewrite case_h_predictor; unfold c, b; field).
  assert (PB : predictor case_h [b] [1] uh 0 = eta3) by (unfold uh; rewrite case_h_predictor; unfold eta3, b; field).
  assert (LE : forall k, (k < 1)%nat -> lin (nrandom case_h) (fun k => sumR (length [c]) (fun j => at2 (gd_X _ (whole (frame_of case_h case_hr))) k j * nth j [c] 0)) (fun k i => LZ (whole (frame_of case_h case_hr)) [1] i k) k uh = 0).
  { intros [|k] Hk; [|lia]. rewrite <- (predictor_lin 1 case_h case_hr [0] [1] [1] [c] Fc uh 0 eq_refl). exact PE. }
  destruct entries0 as [E1 [E2 [E3 E4]]].
  exists (fun _ B => [[4 / 5 * at_ B 0 0]]), 1%nat, (mkOffset case_h (Some [ln 3])), case_hr, [0], [1], [1], [b], [[5 / 4]], [[4 / 5]], uh.
  cbn [of_frame of_offset]. do 4 eexists. split; [exact F|]. split; [reflexivity|]. split; [exact case_h_solves|]. split; [exact case_h_inverse|]. split; [reflexivity|]. split.
  { destruct T as [T1 T2 T3 T4]. constructor; [|exact T2|exact T3|exact T4]. intros i u Hi Hu. unfold is_partial_n. eapply is_derive_n_ext; [|exact (T1 i u Hi Hu)].
    intros t. cbn beta. change (nrandom case_h) with 1%nat in *. destruct u as [|x [|]]; try discriminate. destruct i as [|i]; [|lia]. change (upd [x] 0 t) with [t].
    f_equal. unfold log_density, offset_log_density. f_equal. f_equal. cbn [seq map]. f_equal. rewrite !case_h_predictor. unfold offset_at, c. cbn [nth]. f_equal. ring. }
  change (nrandom case_h) with 1%nat in *. split; [|split].
  - intros [|i] Hi; [|lia]. unfold g1, part. rewrite sumR_S. rewrite LE by lia. unfold sumR. cbn [seq map fold_right nth]. rewrite E1, case_h_LZ. unfold uh. cbn [nth]. field.
  - intros [|i] [|j] Hi Hj; try lia. unfold g2, part. rewrite sumR_S. rewrite LE by lia. unfold sumR. cbn [seq map fold_right nth]. rewrite E2, case_h_LZ.
    unfold MatrixSpec.entry, MatrixSpec.unit_entry. cbn [nth Nat.eqb]. field.
  - eexists. split; [exact (epsilon_eval Logit 1 case_h case_hr [0] [1] [1] [b] F _ [[5 / 4]] [[4 / 5]] uh case_h_solves case_h_inverse eq_refl "binomial" "logit" eq_refl)|].
    change (nrandom case_h) with 1%nat in *.
    assert (S1 : forall f : nat -> R, sumR 1 f = f 0%nat) by (intros g; rewrite sumR_S; unfold sumR; cbn; ring). rewrite !S1, PB. cbn [nth].
    destruct entries3 as [Q3 Q4]. rewrite Q3, Q4, case_h_LZ. change (at_ [[4 / 5]] 0 0) with (4 / 5).
    unfold second_order, g3, g4, part. rewrite !S1. rewrite LE by lia. cbn [nth]. rewrite E3, E4, case_h_LZ. change (at_ [[4 / 5]] 0 0) with (4 / 5). lra.
Qed.

Lemma zero_offset_case : let f := mkOffset contests (Some [0; 0; 0]) in no_offset (of_offset f) /\
  (regular (of_frame f) /\ no_empty (of_frame f)) /\
  (exists s v, node_setup two_nodes (of_frame f) 1 "binomial" "logit" 3 = Ok s /\
    node_lfun two_nodes (contests_approx (2 * v)) s [1; 0] = Ok v) /\
  let g := mkOffset case_h None in no_offset (of_offset g) /\ fits 1 (of_frame g) case_hr [0] [1] [1] [1 / 2].
Proof.
  cbn [of_frame of_offset]. split; [intros [|[|[|[|k]]]]; reflexivity|]. split; [exact contests_regular|]. split; [exact contests_run|].
  split; [intros k; reflexivity|apply case_h_fits].
Qed.
