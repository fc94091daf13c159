(** Cases for C71. *)
From Coq Require Import String List Reals ZArith Bool Arith Lia Lra.
From Coquelicot Require Import Coquelicot.
From Verif Require Import Model.Base Model.Family Model.GLMM Model.SplitFrame Model.Frames Model.IS Model.Quadrature Model.BasisLevel Model.LfunSR Model.Sequential Spec.Numbers Spec.FamilySpec Spec.GLMMSpec Spec.SplitSpec Spec.FramesSpec Spec.ISSpec
  Spec.HermiteSpec Spec.SplineSpec Spec.IntegralSpec Spec.DensitySpec Spec.LfunSpec Spec.JointSpec Spec.SequentialSpec Spec.LogSum Spec.MirrorSpec Spec.Toy
  Proofs.GLMMLemmas Proofs.SignMain Proofs.ISMain Proofs.ISEstimate Proofs.HOLMain Proofs.MirrorMain
  Proofs.QuantileMain Proofs.BasisMain Proofs.DensityJoint Proofs.JointCases Proofs.LfunMain Proofs.LfunCases Proofs.QuadratureCases Proofs.SequentialTotal Proofs.SequentialCases Proofs.ISFamily Proofs.FamilyLemmas Proofs.StoreCases Proofs.MirrorSequential.
From Verif Require Spec.MatrixSpec Spec.LaplaceSpec Spec.HOLSpec Proofs.HOLCases.
Import ListNotations.
Local Open Scope R_scope.
Notation length := List.length.

Theorem C71_reported_main n m r theta beta : proper n m -> mo_re _ m = Some r -> bounds_fit r -> length theta = ntheta m ->
  exists theta' s, report_estim Rnum (rt_lower _ r) (ntheta m) (theta ++ beta) = theta' ++ beta /\ length theta' = length theta /\ mirror (frame_of m r) beta theta theta' s.
Proof.
  intros P E B T. destruct (seen_signs n m r theta beta P E B T) as [theta' [R0 [L [_ [[s [LS [FS H]]] _]]]]]. exists theta', s. split; [exact R0|]. split; [congruence|].
  unfold mirror. assert (ND : nrandom m = cs_rows (fr_Zt _ (frame_of m r))) by (unfold nrandom; now rewrite E). rewrite <- ND.
  assert (NN : n = length (cs_cols (fr_Zt _ (frame_of m r)))) by (symmetry; exact (pr_cols _ _ (pr_re _ _ P r E))). rewrite <- NN.
  split; [exact LS|]. split; [exact FS|]. intros u k U K. specialize (H u k U K). unfold predictor in H. now rewrite E in H.
Qed.

(** * One observation with one random effect *)
Definition hb : R := 1 / 4 - ln 3.
Definition hP : list (list R) := [[19 / 16]].
Definition hR : list (list R) := [[sqrt (19 / 16)]].
Definition hC : list (list R) := [[/ sqrt (19 / 16)]].

Lemma h_LZ t : LZ (whole (frame_of case_h case_hr)) [t] 0 0 = t.
Proof. unfold LZ, Lam, sumR, at2; cbn; change (Pos.to_nat 1) with 1%nat; cbn; ring. Qed.
Lemma h_predictor b t x : predictor case_h [b] [t] [x] 0 = b + t * x.
Proof. unfold predictor, eta. cbn [mo_re case_h length]. rewrite !sumR_S. unfold sumR. cbn [seq map fold_right nth]. rewrite h_LZ. unfold at2. cbn. ring. Qed.
Lemma h_fits t b : fits 1 case_h case_hr [0] [1] [t] [b].
Proof. destruct (case_h_fits b). constructor; auto. Qed.
Lemma h_mirror b : mirror (frame_of case_h case_hr) [b] [-1] [1] [-1].
Proof.
  split; [reflexivity|]. split; [constructor; [now right|constructor]|]. intros [|x [|]] k U K; try discriminate U. cbn in K. destruct k; [|lia].
  change (predictor case_h [b] [1] [x] 0 = predictor case_h [b] [-1] (flip [-1] [x]) 0). unfold flip. cbn [combine map fst snd]. rewrite !h_predictor. ring.
Qed.
Lemma root_pos : 0 < sqrt (19 / 16). Proof. apply sqrt_lt_R0. lra. Qed.
Lemma h_routines : routines 1 (fun _ => hR) (fun _ => hC) (fun _ => 19 / 16) hP.
Proof.
  pose proof root_pos as RP. pose proof (sqrt_sqrt (19 / 16) ltac:(lra)) as SS.
  assert (SQ : forall a, MatrixSpec.square 1 [[a]]) by (intros a; split; [reflexivity|intros [|i] Hi; [reflexivity|lia]]).
  constructor.
  - split; [apply SQ|]. split; [apply SQ|]. split; [intros [|i] j Hi Hj; lia|]. split.
    + intros [|i] Hi; [exact RP|lia].
    + intros [|i] [|j] Hi Hj; try lia. rewrite sumR_S. unfold sumR, MatrixSpec.entry, hR, hP. cbn [seq map fold_right nth]. rewrite SS. ring.
  - split; [apply SQ|]. split; [apply SQ|]. intros [|i] [|j] Hi Hj; try lia. unfold MatrixSpec.row_col. rewrite !sumR_S. unfold sumR, MatrixSpec.entry, hR, hC, MatrixSpec.unit_entry. cbn.
    split; field; lra.
  - unfold hP. cbn. ring.
Qed.
(** The mode is 1/4, and the second derivative there is - 19/16. *)
Lemma h_density x : log_joint 1 logistic binomial_dev case_h [0] [1] [hb] [-1] [x] = - ln (1 + exp (hb - x)) - x ^ 2 / 2 - ln (sqrt (2 * PI)).
Proof.
  unfold log_joint. rewrite sumR_S. unfold sumR. cbn [seq map fold_right nth]. rewrite h_predictor.
  replace (hb + -1 * x) with (hb - x) by ring. unfold binomial_dev, y_log_y, Reqb. destruct (Req_EM_T 0 0) as [_|N]; [|lra]. destruct (Req_EM_T (1 - 0) 0) as [N|_]; [lra|].
  rewrite ln_std_normal. cbn [List.length]. rewrite sumR_S. unfold sumR. cbn [seq map fold_right nth INR]. pose proof (exp_pos (hb - x)) as EP. pose proof (exp_pos (- (hb - x))) as EM.
  assert (Q : (1 - 0) / (1 - logistic (hb - x)) = 1 + exp (hb - x)).
  { unfold logistic. rewrite exp_Ropp. field. lra. }
  rewrite Q. lra.
Qed.
Lemma h_mode : is_derive (fun x => log_joint 1 logistic binomial_dev case_h [0] [1] [hb] [-1] [x]) (1 / 4) 0 /\
  is_derive_n (fun x => log_joint 1 logistic binomial_dev case_h [0] [1] [hb] [-1] [x]) 2 (1 / 4) (- (19 / 16)).
Proof.
  assert (E3 : exp (hb - 1 / 4) = / 3) by (unfold hb; replace (1 / 4 - ln 3 - 1 / 4) with (- ln 3) by ring; rewrite exp_Ropp, exp_ln; [reflexivity|lra]).
  assert (D : forall x, is_derive (fun x => log_joint 1 logistic binomial_dev case_h [0] [1] [hb] [-1] [x]) x (exp (hb - x) / (1 + exp (hb - x)) - x)).
  { intros x. eapply is_derive_ext; [intros t; symmetry; apply h_density|]. pose proof (exp_pos (hb - x)) as EX. auto_derive; change (hb + - x) with (hb - x); [repeat split; lra|]. field. lra. }
  split.
  - pose proof (D (1 / 4)) as A. rewrite E3 in A. replace (/ 3 / (1 + / 3) - 1 / 4) with 0 in A by field. exact A.
  - cbn [is_derive_n]. eapply is_derive_ext; [intros t; symmetry; apply is_derive_unique; cbn; apply D|]. auto_derive; change (hb + - (1 / 4)) with (hb - 1 / 4); rewrite E3; [repeat split; lra|]. field.
Qed.

Lemma logit_mid x : -30 <= x <= 30 -> logit_linkinv x = logistic x.
Proof.
  intros H. unfold logit_linkinv, Rltb. destruct (Rlt_dec x (-30)); [lra|]. destruct (Rlt_dec 30 x); [lra|]. exact (logit_logistic x).
Qed.
Lemma c_bounds : 0 < / sqrt (19 / 16) <= 1.
Proof.
  assert (1 <= sqrt (19 / 16)) by (rewrite <- sqrt_1; apply sqrt_le_1; lra). split; [apply Rinv_0_lt_compat; lra|].
  rewrite <- Rinv_1. apply Rinv_le_contravar; lra.
Qed.
Lemma ln3_bounds : 0 < ln 3 <= 2.
Proof. split; [rewrite <- ln_1; apply ln_increasing; lra|]. pose proof (ln_le 3 ltac:(lra)). lra. Qed.
Definition hfam : rfamily := r_binomial 0 Logit.
Lemma h_value e : -1 <= e <= 1 -> lfun_IS (fun _ => hR) (fun _ => hC) (fun _ => 19 / 16) [[e]] 1 hfam case_h case_hr [-1; hb] [1 / 4] hP =
  Ok (- ln (1 + exp (- ln 3 - / sqrt (19 / 16) * e)) - (1 / 4 + / sqrt (19 / 16) * e) ^ 2 / 2 - ln (sqrt (2 * PI)) - (ln (std_normal [e]) + ln (Rabs (19 / 16)) / 2)).
Proof.
  intros He. pose proof c_bounds as CB. pose proof ln3_bounds as L3. set (c := / sqrt (19 / 16)) in *.
  assert (CE : -1 <= c * e <= 1) by nra.
  assert (SZ : sized 1 1 [[e]]) by (split; [reflexivity|intros row [<-|[]]; reflexivity]).
  unfold lfun_IS. change [-1; hb] with ([-1] ++ [hb]).
  rewrite (weights_eq (fun _ => hR) (fun _ => hC) (fun _ => 19 / 16) 1 [1 / 4] hP h_routines eq_refl [[e]] 1 _ (log_joint 1 (linkinv hfam) (dev_resids hfam) case_h [0] [1] [hb] [-1]) SZ)
    by (intros u SU; exact (C44_integrand_main hfam 1 case_h case_hr [0] [1] [-1] [hb] (h_fits (-1) hb) 1 u ltac:(lia) SU)).
  cbn [bind seq map]. change (draw [[e]] 0) with [e].
  rewrite (G_T (fun _ => hR) (fun _ => hC) (fun _ => 19 / 16) 1 [1 / 4] hP h_routines) by reflexivity.
  assert (IM : image 1 hC [1 / 4] [e] = [1 / 4 + c * e]).
  { unfold image. cbn [seq map nth]. f_equal. rewrite sumR_S. unfold sumR, MatrixSpec.entry, hC. cbn [seq map fold_right nth]. fold c. ring. }
  rewrite IM.
  assert (LJ : log_joint 1 (linkinv hfam) (dev_resids hfam) case_h [0] [1] [hb] [-1] [1 / 4 + c * e] = log_joint 1 logistic binomial_dev case_h [0] [1] [hb] [-1] [1 / 4 + c * e]).
  { unfold log_joint. f_equal. f_equal. f_equal. apply sumR_ext. intros k Hk. destruct k; [|lia]. rewrite h_predictor. cbn [hfam r_binomial linkinv dev_resids]. rewrite logit_mid; [reflexivity|]. unfold hb. lra. }
  rewrite LJ, h_density. replace (hb - (1 / 4 + c * e)) with (- ln 3 - c * e) by (unfold hb; ring).
  f_equal. unfold mean_of. cbn. match goal with |- ln ((exp (?a - ?b) + 0) / _) + _ = ?v => set (x := a) end. 
  replace ((x + 0) / 1) with x by field. replace (x - x) with 0 by ring. rewrite exp_0. replace ((1 + 0) / 1) with 1 by field. rewrite ln_1. unfold x. ring.
Qed.
Lemma cube t : 0 < t -> ln (1 + t * t / 3) - ln (1 + / (t * t) / 3) = ln t -> t = 1.
Proof.
  intros T E. assert (P1 : 0 < 1 + t * t / 3) by nra. assert (IT : 0 < / (t * t)) by (apply Rinv_0_lt_compat; nra). assert (P2 : 0 < 1 + / (t * t) / 3) by lra.
  assert (E1 : ln (1 + t * t / 3) = ln (t * (1 + / (t * t) / 3))) by (rewrite ln_mult by assumption; lra).
  apply ln_inv in E1; [|assumption|now apply Rmult_lt_0_compat].
  assert (C : (t - 1) ^ 3 = 0).
  { assert (M : (1 + t * t / 3) * (3 * t) = t * (1 + / (t * t) / 3) * (3 * t)) by now rewrite E1. replace (t * (1 + / (t * t) / 3) * (3 * t)) with (3 * (t * t) + 1) in M by (field; lra). nra. }
  destruct (Req_dec t 1) as [|N]; [assumption|]. exfalso. assert (t - 1 <> 0) by lra. exact (pow_nonzero (t - 1) 3 H C).
Qed.
Lemma C71_importance_refuted_main : exists v v',
  lfun_IS (fun _ => hR) (fun _ => hC) (fun _ => 19 / 16) [[1]] 1 hfam case_h case_hr [-1; hb] [1 / 4] hP = Ok v /\
  lfun_IS (fun _ => hR) (fun _ => hC) (fun _ => 19 / 16) [[1]] 1 hfam case_h case_hr [1; hb] [- (1 / 4)] hP = Ok v' /\ v <> v'.
Proof.
  assert (FP : flipped (nrandom case_h) [-1] hP hP).
  { split; [split; [reflexivity|intros [|i] Hi; [reflexivity|cbn in Hi; lia]]|]. intros [|i] [|j] Hi Hj; try (cbn in Hi, Hj; lia). unfold MatrixSpec.entry, hP. cbn [nth]. ring. }
  pose proof (C71_importance_main hfam 1 case_h case_hr [0] [1] [-1] [1] [hb] [-1] (fun _ => hR) (fun _ => hC) (fun _ => 19 / 16) [1 / 4] hP hP [[1]] 1
    (h_fits (-1) hb) eq_refl (h_mirror hb) h_routines h_routines FP eq_refl ltac:(lia) (conj eq_refl (fun row H => match H with or_introl E => eq_ind [1] (fun r => length r = 1%nat) eq_refl row E | or_intror F => False_ind _ F end))) as M.
  unfold flip, flip_rows in M. cbn [combine map fst snd app] in M. replace (-1 * (1 / 4)) with (- (1 / 4)) in M by ring. replace (-1 * 1) with (-1) in M by ring.
  eexists; eexists. split; [apply h_value; lra|]. split; [etransitivity; [exact M|apply h_value; lra]|].
  pose proof c_bounds as CB. set (c := / sqrt (19 / 16)) in *. intros E.
  assert (SN : std_normal [-1] = std_normal [1]) by (unfold std_normal, phi; cbn [map fold_right]; do 3 f_equal; f_equal; ring).
  rewrite SN in E.
  assert (T : exp (c / 2) = 1).
  { apply cube; [apply exp_pos|]. rewrite ln_exp.
    assert (Q1 : exp (c / 2) * exp (c / 2) / 3 = exp (- ln 3 - c * -1)).
    { replace (- ln 3 - c * -1) with (c / 2 + c / 2 + - ln 3) by field. rewrite !exp_plus, exp_Ropp, exp_ln by lra. reflexivity. }
    assert (Q2 : / (exp (c / 2) * exp (c / 2)) / 3 = exp (- ln 3 - c * 1)).
    { replace (- ln 3 - c * 1) with (- (c / 2 + c / 2) + - ln 3) by field. rewrite exp_plus, !exp_Ropp, exp_plus, exp_ln by lra. reflexivity. }
    rewrite Q1, Q2. lra. }
  assert (1 < exp (c / 2)) by (rewrite <- exp_0; apply exp_increasing; lra). lra.
Qed.
(** The parameters reported are not those found. *)
Lemma h_bounds : bounds_fit case_hr.
Proof. split; [reflexivity|]. cbn. intros i j l [E|[]]. injection E as <- <- <-. cbn. tauto. Qed.
Lemma h_reported : report_estim Rnum (rt_lower _ case_hr) (ntheta case_h) [-1; hb] = [1; hb].
Proof.
  unfold report_estim, ntheta. cbn. unfold abs. cbn. unfold Rltb. destruct (Rlt_dec _ _) as [_|N]; [|exfalso; apply N; lra]. f_equal. lra.
Qed.

(** * Sequential reduction *)
Lemma small_pair r fr Q scopes : regular fr /\ no_empty fr -> (1 <= length (cs_cols (fr_Zt _ fr)))%nat -> cs_rows (fr_Zt _ fr) = 2%nat ->
  fr_numFixed _ fr = 1%nat -> (forall i, In i (fr_Lind _ fr) -> i = 1%Z) ->
  (forall r b, match small_setup r b fr 1 "binomial" "logit" 3 with Ok s => Some (scopes_of s) | _ => None end = Some scopes) ->
  exists b s ll v v', basis_new quantile some_inverse some_solve 3 = Ok b /\ small_setup r b fr 1 "binomial" "logit" 3 = Ok s /\
  scopes_of s = scopes /\ small_lfun r b (small_approx Q ll) s [-1; 0] = Ok v /\ small_lfun r b (small_approx Q ll) s [1; 0] = Ok v'.
Proof.
  intros [Reg Ne] Obs Rows Nf HL Hset.
  destruct (real_basis quantile some_inverse some_solve 3 quantile_normal ltac:(lia) some_inverse_inverts some_solve_solves)
    as (b & x & phi & p1 & p2 & E & TB & NB & _ & X0 & _).
  exists b. pose proof (Hset r b) as Hs. destruct (small_setup r b fr 1 "binomial" "logit" 3) as [s|e| |] eqn:Es; try discriminate.
  injection Hs as Hs. exists s.
  assert (HLi : forall i, In i (fr_Lind _ fr) -> (1 <= i <= Z.of_nat 1)%Z) by (intros i Hi; rewrite (HL i Hi); lia).
  assert (A : forall t : R, exists v, forall laplace ll, laplace [t; 0] = (ll, [0; 0], Q) -> v <= ll / 2 -> small_lfun r b laplace s [t; 0] = Ok v).
  { intros t. destruct (C57_sequential_main inv_all det_small (fun _ => true) (fun _ v => v) (fun A => A) (fun A => A) r b nowhere 3 _ x phi TB NB fr 1 Logit 3 s Reg Ne Obs
      ltac:(lia) HLi Es [t; 0] [0; 0] Q) as [(v & Hv)|((y & Hy) & _)]; try discriminate.
    - rewrite Nf. reflexivity.
    - now rewrite Rows.
    - exists v. intros laplace ll Hl. exact (proj1 (Hv laplace ll Hl)). }
  destruct (A (-1)) as [v Hv]. destruct (A 1) as [v' Hv']. exists (2 * Rmax v v'), v, v'.
  assert (H1 : v <= 2 * Rmax v v' / 2) by (pose proof (Rmax_l v v'); lra). assert (H2 : v' <= 2 * Rmax v v' / 2) by (pose proof (Rmax_r v v'); lra).
  split; [exact E|]. split; [reflexivity|]. split; [exact Hs|]. split; [exact (Hv _ _ eq_refl H1)|exact (Hv' _ _ eq_refl H2)].
Qed.

Definition signs (n : nat) : list R := repeat (-1) n.
Lemma contest_mirror : mirror contest [0] [-1] [1] (signs 2).
Proof.
  split; [reflexivity|]. split; [repeat constructor; now right|]. intros [|x [|y [|]]] k U K; try discriminate U. cbn in K.
  destruct k as [|k]; [|lia]. unfold eta, LZ, Lam, sumR, at2, flip, signs. cbn. change (Pos.to_nat 1) with 1%nat. cbn. ring.
Qed.
Lemma groups_mirror : mirror groups [0] [-1] [1] (signs 2).
Proof.
  split; [reflexivity|]. split; [repeat constructor; now right|]. intros [|x [|y [|]]] k U K; try discriminate U. cbn in K.
  destruct k as [|[|[|k]]]; try lia; unfold eta, LZ, Lam, sumR, at2, flip, signs; cbn; change (Pos.to_nat 1) with 1%nat; cbn; ring.
Qed.
Lemma contests_mirror : mirror contests [0] [-1] [1] (signs 3).
Proof.
  split; [reflexivity|]. split; [repeat constructor; now right|]. intros [|x [|y [|z [|]]]] k U K; try discriminate U. cbn in K.
  destruct k as [|[|[|k]]]; try lia; unfold eta, LZ, Lam, sumR, at2, flip, signs; cbn; change (Pos.to_nat 1) with 1%nat; cbn; ring.
Qed.

Lemma two_nodes_symmetric f : logsum two_nodes (fun u => f (- u)) = logsum two_nodes f.
Proof. unfold logsum, wsum, two_nodes. cbn. f_equal. replace (- -1) with 1 by ring. replace (- (1)) with (-1) by ring. ring. Qed.
Lemma contests_pair : exists s ll v v', node_setup two_nodes contests 1 "binomial" "logit" 3 = Ok s /\
  node_lfun two_nodes (contests_approx ll) s [-1; 0] = Ok v /\ node_lfun two_nodes (contests_approx ll) s [1; 0] = Ok v'.
Proof.
  destruct contests_regular as [Reg Ne].
  pose proof contests_setup as Hs. destruct (node_setup two_nodes contests 1 "binomial" "logit" 3) as [s|e| |] eqn:Es; try discriminate. clear Hs.
  exists s.
  assert (A : forall t : R, exists v, forall laplace ll, laplace [t; 0] = (ll, [0; 0; 0], fun i j : Z => if Z.eqb i j then 2 else 1) -> v <= ll / 2 -> node_lfun two_nodes laplace s [t; 0] = Ok v).
  { intros t. destruct (C57_lfun_main inv_all det_small (fun _ => true) grid fst snd zeros zeros2 (node_sum two_nodes) contests 1 Logit 3 s Reg Ne)
      with (pars := [t; 0]) (mean := [0; 0; 0]) (prec := fun i j : Z => if Z.eqb i j then 2 else 1) as [_ G].
    - cbn. lia.
    - lia.
    - intros i [<-|[<-|[<-|[]]]]; lia.
    - exact Es.
    - intros f d d2 k n items b E. injection E as <-. reflexivity.
    - destruct G as [(v & Hv)|((x & H) & _)]; [apply node_exact; apply nodes_ok|reflexivity|reflexivity| |discriminate].
      exists v. intros laplace ll Hl. exact (proj1 (Hv laplace ll Hl)). }
  destruct (A (-1)) as [v Hv]. destruct (A 1) as [v' Hv']. exists (2 * Rmax v v'), v, v'.
  assert (H1 : v <= 2 * Rmax v v' / 2) by (pose proof (Rmax_l v v'); lra). assert (H2 : v' <= 2 * Rmax v v' / 2) by (pose proof (Rmax_r v v'); lra).
  split; [reflexivity|]. split; [exact (Hv _ _ eq_refl H1)|exact (Hv' _ _ eq_refl H2)].
Qed.

(** Level 0 for one contest, and two nodes for two groups: the runs at -1 and at 1. *)
Lemma flip_same (Q : Z -> Z -> R) (f : Z -> R) x y : f x = -1 -> f y = -1 -> Q x y = f x * f y * Q x y.
Proof. intros -> ->. ring. Qed.
Lemma signs_2 e : In e [0; 1]%Z -> sign_of (signs 2) e = -1.
Proof. intros [<-|[<-|[]]]; reflexivity. Qed.
Lemma same_proper (f : Z -> R) Sigma : (forall e, In e [0; 1]%Z -> f e = -1) -> proper_marginals det_small [0; 1]%Z zero_mean Sigma ->
  proper_marginals det_small [0; 1]%Z zero_mean (fun x y => f x * f y * Sigma x y).
Proof.
  intros Hf P C n N Ne Hi M. apply (P C n N Ne Hi). destruct M as (A & B & D). split; [exact A|]. split; [exact B|]. intros i j HI HJ. rewrite (D i j HI HJ).
  rewrite (Hf (nth i C 0%Z)), (Hf (nth j C 0%Z)); [ring|apply Hi, nth_In; exact HJ|apply Hi, nth_In; exact HI].
Qed.

Lemma C71_sequential_case : (forall p, exact_integral (node_sig two_nodes p) (logsum two_nodes) /\ fubini (node_sig two_nodes p) (logsum two_nodes)) /\
  (forall f, logsum two_nodes (fun u => f (- u)) = logsum two_nodes f) /\ mirror contests [0] [-1] [1] (signs 3) /\
  exists s ll v v', node_setup two_nodes contests 1 "binomial" "logit" 3 = Ok s /\
  node_lfun two_nodes (contests_approx ll) s [-1; 0] = Ok v /\ node_lfun two_nodes (contests_approx ll) s [1; 0] = Ok v'.
Proof.
  split; [intros p; destruct (node_exact two_nodes p) as [A [B _]]; try apply nodes_ok; auto|]. split; [exact two_nodes_symmetric|]. split; [exact contests_mirror|exact contests_pair].
Qed.
Lemma C71_laplace_case : mirror contest [0] [-1] [1] (signs 2) /\
  (forall x y, In x (effects contest) -> In y (effects contest) -> contest_Q x y = sign_of (signs 2) x * sign_of (signs 2) y * contest_Q x y) /\
  proper_marginals det_small (effects contest) zero_mean (fun x y => sign_of (signs 2) x * sign_of (signs 2) y * contest_Sigma x y) /\
  exists b s ll v v', basis_new quantile some_inverse some_solve 3 = Ok b /\
  let r := rule_initialize one_rule 1 in
  small_setup r b contest 1 "binomial" "logit" 3 = Ok s /\ scopes_of s = [[0; 1]; [0]; [1]]%Z /\
  small_lfun r b (small_approx contest_Q ll) s [-1; 0] = Ok v /\ small_lfun r b (small_approx contest_Q ll) s [1; 0] = Ok v'.
Proof.
  split; [exact contest_mirror|]. split; [intros x y Hx Hy; apply flip_same; now apply signs_2|]. split.
  - apply same_proper; [exact signs_2|]. apply (small_proper _ (2 / 3) (1 / 3)); [reflexivity|lra|lra].
  - exact (small_pair (rule_initialize one_rule 1) contest contest_Q [[0; 1]; [0]; [1]]%Z contest_regular ltac:(cbn; lia) eq_refl eq_refl
      ltac:(intros i [<-|[<-|[]]]; reflexivity) contest_setup).
Qed.
Lemma C71_two_level_case : mirror groups [0] [-1] [1] (signs 2) /\
  (forall x y, In x (effects groups) -> In y (effects groups) -> groups_Q x y = sign_of (signs 2) x * sign_of (signs 2) y * groups_Q x y) /\
  proper_marginals det_small (effects groups) zero_mean (fun x y => sign_of (signs 2) x * sign_of (signs 2) y * groups_Sigma x y) /\
  exists b s ll v v', basis_new quantile some_inverse some_solve 3 = Ok b /\
  let r := rule_initialize two_rule 2 in
  small_setup r b groups 1 "binomial" "logit" 3 = Ok s /\ scopes_of s = [[0]; [1]; [0]; [1]]%Z /\
  small_lfun r b (small_approx groups_Q ll) s [-1; 0] = Ok v /\ small_lfun r b (small_approx groups_Q ll) s [1; 0] = Ok v'.
Proof.
  split; [exact groups_mirror|]. split; [intros x y Hx Hy; apply flip_same; now apply signs_2|]. split.
  - apply same_proper; [exact signs_2|]. apply (small_proper _ (1 / 2) 0); [reflexivity|lra|lra].
  - exact (small_pair (rule_initialize two_rule 2) groups groups_Q [[0]; [1]; [0]; [1]]%Z groups_regular ltac:(cbn; lia) eq_refl eq_refl
      ltac:(intros i [<-|[<-|[]]]; reflexivity) groups_setup).
Qed.
Lemma C71_second_order_case b : fits 1 case_h case_hr [0] [1] [-1] [b] /\ mirror (frame_of case_h case_hr) [b] [-1] [1] [-1] /\
  HOLSpec.solves (fun _ B => [[4 / 5 * at_ B 0 0]]) (nrandom case_h) 1 [[5 / 4]] /\ MatrixSpec.are_inverse (nrandom case_h) [[5 / 4]] [[4 / 5]] /\
  flipped (nrandom case_h) [-1] [[5 / 4]] [[5 / 4]].
Proof.
  split; [apply h_fits|]. split; [apply h_mirror|]. split; [exact HOLCases.case_h_solves|]. split; [exact HOLCases.case_h_inverse|].
  split; [split; [reflexivity|intros [|i] Hi; [reflexivity|cbn in Hi; lia]]|]. intros [|i] [|j] Hi Hj; try (cbn in Hi, Hj; lia). unfold MatrixSpec.entry. cbn [nth]. ring.
Qed.
