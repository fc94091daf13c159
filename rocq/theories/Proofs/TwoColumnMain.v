(** Responses with two columns. *)
From Coq Require Import String List Reals ZArith Bool Arith Lia Lra Permutation.
From Verif Require Import Model.Base Model.Family Model.GLMM Model.SplitFrame Model.Frames Model.Vectors Model.IS Model.HOL Model.TwoColumn Spec.Numbers Spec.FamilySpec Spec.GLMMSpec Spec.SplitSpec
  Spec.FramesSpec Spec.ISSpec Spec.HOLSpec Proofs.GLMMLemmas Proofs.SplitLemmas Proofs.SplitMain Proofs.ISMain Proofs.HOLMain.
From Verif Require Proofs.LfunCases.
Import ListNotations.
Local Open Scope R_scope.

Lemma zip2_Ok_length {A B C} (f : A -> B -> C) : forall a b r, zip2 f a b = Ok r -> length a = length b /\ length r = length a.
Proof.
  induction a as [|x a IH]; intros [|y b] r H; cbn in H; try discriminate; [injection H as <-; now split|].
  destruct (zip2 f a b) as [q| | |] eqn:E; try discriminate. cbn in H. injection H as <-. destruct (IH b q E) as [L1 L]. cbn. split; congruence.
Qed.
Lemma zip3_Ok_length {A B C D} (f : A -> B -> C -> D) a b c r : zip3 f a b c = Ok r -> length a = length b /\ length b = length c.
Proof.
  unfold zip3. destruct (zip2 pair a b) as [ab| | |] eqn:E; try discriminate. cbn [bind]. intros H.
  apply zip2_Ok_length in E. apply zip2_Ok_length in H. destruct E, H. split; congruence.
Qed.
Lemma computeMean_length l lp : length (computeMean Rnum l lp) = length lp.
Proof. unfold computeMean. destruct l; now rewrite map_length. Qed.
Lemma checkMean_length m : length (checkMean Rnum m) = length m.
Proof. unfold checkMean. now rewrite map_length. Qed.

Lemma evaluate_lengths fam lp y w v : evaluate Rnum fam lp y w = Ok v -> length lp = length y /\ length y = length w.
Proof.
  unfold evaluate, binomial_evaluate. 
  match goal with |- context [zip3 ?f ?a ?b ?c] => destruct (zip3 f a b c) as [r| | |] eqn:E end; try discriminate. intros _.
  apply zip3_Ok_length in E. now rewrite checkMean_length, computeMean_length in E.
Qed.
Lemma third_lengths fam lp y w v : evaluateThirdDerivative Rnum fam lp y w = Ok v -> length lp = length y /\ length y = length w.
Proof.
  unfold evaluateThirdDerivative. 
  match goal with |- context [zip3 ?f ?a ?b ?c] => destruct (zip3 f a b c) as [r| | |] eqn:E end; try discriminate. intros _.
  apply zip3_Ok_length in E. now rewrite checkMean_length, computeMean_length in E.
Qed.

Definition two_local (t : two_columns Rnum) (C os : list nat) : glmm_data Rnum :=
  let d := local (tc_frame _ t) C os in
  mkData Rnum (gd_items _ d) (gd_X _ d) (gd_numFixed _ d) (gd_Zt _ d) (gd_numObs _ d) (gd_Lambdat _ d) (gd_Lind _ d)
    (gd_response _ d ++ map (fun o => nth (o - 1) (tc_second _ t) 0) os) (gd_weights _ d).

Theorem C70_sequential_main : forall t : two_columns Rnum, let fr := tc_frame _ t in let n := length (cs_cols (fr_Zt _ fr)) in
  regular fr -> no_empty fr -> (1 <= n)%nat -> length (tc_second _ t) = n ->
  exists ds, two_column_factorization_terms Rnum t =
    Ok (map (GLMMTerm Rnum) ds ++ map (fun i => NormalTerm Rnum [Z.of_nat i] [0] [[1]]) (seq 0 (cs_rows (fr_Zt _ fr)))) /\
  fold_right Nat.add 0%nat (map (gd_numObs Rnum) ds) = n /\
  forall d, In d ds -> (1 <= gd_numObs _ d)%nat -> forall c x p v, glmm_evaluate Rnum d c x p <> Ok v.
Proof.
  intros t fr n Reg NE Hn Hs.
  destruct (C37_terms_main fr Reg NE Hn) as (ds0 & E0 & _).
  unfold two_column_factorization_terms. fold fr. fold n. set (q := cs_rows (fr_Zt _ fr)).
  set (act := find_active (fr_Lambdat _ fr) (fr_Zt _ fr)).
  assert (OT : one_to n = seq 1 n) by exact (one_to_range fr Hn). rewrite OT.
  assert (X : exists ext, add_obs (unique identical act) act (seq 1 n) = Ok ext).
  { rewrite (terms_eq fr Reg Hn) in E0. fold n act in E0. destruct (add_obs (unique identical act) act (seq 1 n)) as [ext| | |]; try discriminate. eauto. }
  destruct X as (ext & E). destruct (proj1 (add_obs_spec _ act (seq 1 n) (seq_NoDup _ _)) ext E) as (M & P & I).
  rewrite E. cbn [bind].
  assert (Ho : forall C os o, In (C, os) ext -> In o os -> (1 <= o <= n)%nat).
  { intros C os o He Ho. assert (In o (seq 1 n)) as X by (rewrite <- P; apply in_concat; exists os; split; [now apply (in_map snd) in He|easy]). apply in_seq in X. lia. }
  exists (map (fun e => two_local t (fst e) (snd e)) ext). split; [|split].
  - rewrite (mapM_all _ (fun e => two_local t (fst e) (snd e))).
    + cbn [bind]. do 2 f_equal. rewrite <- seq_shift, map_map. apply map_ext. intros i. do 2 f_equal. lia.
    + intros [C os] He. unfold two_column_local_term. fold fr. rewrite (local_ok fr Reg C os).
      * cbn [bind fst snd]. rewrite (at_obs_ok fr _ (0:R)). { reflexivity. } intros o H. pose proof (Ho C os o He H) as B. rewrite <- Hs in B. exact B.
      * intros c Hc. apply (active_range fr Reg C); [|exact Hc]. apply (unique_In identical identical_eq). fold act. rewrite <- M. now apply (in_map fst) in He.
      * intros o H. exact (Ho C os o He H).
  - rewrite map_map. cbn [two_local gd_numObs local].
    transitivity (length (concat (map snd ext))).
    + clear. induction ext as [|e ext IH]; [reflexivity|]. cbn [map fold_right concat]. rewrite IH, app_length. reflexivity.
    + rewrite (Permutation_length P). apply seq_length.
  - intros d Hd H1 c x p v Hv. apply in_map_iff in Hd. destruct Hd as ([C os] & <- & He). cbn [fst snd] in *.
    unfold glmm_evaluate in Hv. destruct (prepare Rnum (two_local t C os) c p) as [c'| | |]; try discriminate. cbn [bind] in Hv.
    destruct (computeLinearPredictor Rnum (two_local t C os) c' x) as [lp| | |]; try discriminate. cbn [bind] in Hv.
    destruct (evaluate Rnum (p_family Rnum p) lp (gd_response Rnum (two_local t C os)) (gd_weights Rnum (two_local t C os))) as [r| | |] eqn:Ev; try discriminate.
    apply evaluate_lengths in Ev. destruct Ev as [_ L]. cbn [two_local local gd_response gd_weights gd_numObs] in *. rewrite app_length, !map_length in L. lia.
Qed.

Theorem C70_second_order_main : forall solve familyName linkName n m r y w theta beta second H u_hat, ISSpec.fits n m r y w theta beta ->
  length second = n -> length u_hat = nrandom m -> forall v,
  find_epsilon_1 solve familyName linkName (theta ++ beta) (two_column_modfr Rnum m second) r u_hat H <> Ok v.
Proof.
  intros solve familyName linkName n m r y w theta beta second H u_hat F LS LU v Hv.
  destruct F as [PR RE N0 NT LT LB HY LY HW LW]. unfold find_epsilon_1 in Hv.
  destruct (make_family familyName linkName) as [fam| | |]; try discriminate. cbn [bind] in Hv.
  change (find_XBeta (theta ++ beta) (two_column_modfr Rnum m second) r) with (find_XBeta (theta ++ beta) m r) in Hv.
  destruct (find_XBeta (theta ++ beta) m r) as [XB| | |] eqn:HX; try discriminate. cbn [bind] in Hv.
  destruct (find_LambdatThetaZt (theta ++ beta) r) as [L| | |] eqn:HL; try discriminate. cbn [bind] in Hv.
  assert (EN : length (cs_cols (rt_Zt Rnum r)) = n) by exact (pr_cols _ _ (pr_re _ _ PR r RE)). rewrite EN in Hv.
  set (U := map (fun x => [x]) u_hat) in Hv.
  assert (SU : sized (nrandom m) 1 U) by (split; [unfold U; rewrite map_length; exact LU|intros row Hr; apply in_map_iff in Hr; destruct Hr as [x [<- _]]; reflexivity]).
  assert (EL : length (find_eta n 1 U XB L) = n) by exact (eq_trans (proj2 (find_eta_nth n m r theta beta U 1 0 0 PR RE NT LT LB SU N0 Nat.lt_0_1 XB L HX HL)) (Nat.mul_1_r n)).
  match type of Hv with bind ?o _ = _ => destruct o as [d3| | |] eqn:E3; try discriminate end. clear Hv.
  apply third_lengths in E3. destruct E3 as [E3 _]. cbn [two_column_modfr mo_response] in E3. rewrite HY in E3. cbn [response_vector] in E3. 
  assert (LA : length (y ++ second) = (n + n)%nat) by exact (eq_trans (app_length y second) (f_equal2 Nat.add LY LS)).
  pose proof (eq_trans (eq_sym EL) (eq_trans E3 LA)). lia.
Qed.

Theorem C70_importance_main : forall fam n m r y w theta beta second nIS u, ISSpec.fits n m r y w theta beta ->
  length second = n -> (1 <= nIS)%nat -> (2 <= n * nIS)%nat -> sized (nrandom m) nIS u -> forall v,
  find_log_integrand fam (theta ++ beta) (two_column_modfr Rnum m second) r nIS u <> Ok v.
Proof.
  intros fam n m r y w theta beta second nIS u F LS N1 N2 SU v Hv.
  destruct F as [PR RE N0 NT LT LB HY LY HW LW]. unfold find_log_integrand in Hv. cbn [two_column_modfr mo_response bind] in Hv.
  change (find_XBeta (theta ++ beta) (two_column_modfr Rnum m second) r) with (find_XBeta (theta ++ beta) m r) in Hv.
  destruct (find_XBeta (theta ++ beta) m r) as [XB| | |] eqn:HX; try discriminate. cbn [bind] in Hv.
  destruct (find_LambdatThetaZt (theta ++ beta) r) as [L| | |] eqn:HL; try discriminate. cbn [bind] in Hv.
  assert (EN : length (cs_cols (rt_Zt Rnum r)) = n) by exact (pr_cols _ _ (pr_re _ _ PR r RE)). rewrite EN in Hv.
  assert (EL : length (find_eta n nIS u XB L) = (n * nIS)%nat) by exact (proj2 (find_eta_nth n m r theta beta u nIS 0 0 PR RE NT LT LB SU N0 N1 XB L HX HL)).
  match type of Hv with bind ?o _ = _ => destruct o as [d3| | |] eqn:E3; try discriminate end. clear Hv.
  apply zip3_Ok_length in E3. destruct E3 as [E3 _]. rewrite HY in E3. cbn [response_vector] in E3.
  assert (LA : length (rep_each (y ++ second) nIS) = ((n + n) * nIS)%nat).
  { etransitivity; [apply rep_each_length|]. f_equal. exact (eq_trans (app_length y second) (f_equal2 Nat.add LY LS)). }
  pose proof (eq_trans (eq_sym LA) (eq_trans E3 (eq_trans (map_length _ _) EL))). lia.
Qed.

Definition two_contests : two_columns Rnum := mkTwo Rnum LfunCases.contests [0; 1; 0].
Lemma two_contests_case : (regular (tc_frame _ two_contests) /\ no_empty (tc_frame _ two_contests)) /\
  length (tc_second _ two_contests) = length (cs_cols (fr_Zt _ (tc_frame _ two_contests))) /\
  ISSpec.fits 1 case_h case_hr [0] [1] [1] [1 / 2].
Proof. split; [exact LfunCases.contests_regular|]. split; [reflexivity|apply case_h_fits]. Qed.
