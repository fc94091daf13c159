(** The second-order Laplace approximation. *)
From Coq Require Import String List Reals ZArith Bool Arith Lia Lra.
From Coquelicot Require Import Coquelicot.
From Verif Require Import Model.Base Model.Family Model.GLMM Model.SplitFrame Model.Frames Model.Vectors Model.IS Model.HOL Spec.Numbers Spec.FamilySpec Spec.GLMMSpec Spec.SplitSpec Spec.FramesSpec Spec.ISSpec Spec.HOLSpec
  Proofs.FamilyLemmas Proofs.FamilyMain Proofs.GLMMLemmas Proofs.SumLemmas Proofs.ConcatMain Proofs.SplitMain Proofs.ISMain Proofs.ISFamily Proofs.Gaussian Proofs.FramesCases Proofs.HOLLemmas.
From Verif Require Spec.MatrixSpec.
Import ListNotations.
Local Open Scope R_scope.

Lemma mn0_P l P : inverse_link l P -> forall t, mn0 l t = P t.
Proof. intros [[-> HP]|[-> HP]] t; [rewrite HP; exact (logit_logistic t)|exact (normal_cdf_unique P HP t)]. Qed.
Lemma mn0_inside l t : 0 < mn0 l t < 1.
Proof.
  destruct l; [|exact (normal_cdf_inside t)]. change (mn0 Logit t) with (logit_mean Rnum t). rewrite logit_logistic. unfold logistic. pose proof (exp_pos (- t)). split.
  - apply Rinv_0_lt_compat. lra.
  - rewrite <- Rinv_1. apply Rinv_lt_contravar; lra.
Qed.
Lemma entry_chain l y w j t : (j < 4)%nat -> is_derive (entry l j y w) t (entry l (S j) y w t).
Proof.
  intros Hj. pose proof (mn0_inside l t). unfold entry. apply (faa_chain _ _ _ _ _ _ _ _ _ _ 0 1); try lia.
  - apply mn_D0. - apply mn_D1. - apply mn_D2. - apply mn_D3.
  - apply binomial_D0. - apply binomial_D1. - apply binomial_D2. - apply binomial_D3.
  - lra.
Qed.

Lemma ln_std_normal z : ln (std_normal z) = - (sumR (length z) (fun i => nth i z 0 ^ 2) / 2) - INR (length z) * ln (sqrt (2 * PI)).
Proof.
  induction z as [|x z IH]; [cbn; rewrite ln_1; unfold sumR; cbn; field|].
  rewrite <- sum_log_dnorm in *. cbn [map fold_right length]. rewrite IH, S_INR, sumR_S. cbn [nth]. unfold log_dnorm.
  field.
Qed.

Section Main.
Variables (l : link) (P : R -> R) (n : nat) (m : modfr Rnum) (r : retrms Rnum) (y w theta beta : list R).
Hypothesis IL : inverse_link l P.
Hypothesis F : fits n m r y w theta beta.
Let d := nrandom m.
Let c k := sumR (length beta) (fun j => at2 (gd_X _ (whole (frame_of m r))) k j * nth j beta 0).
Let V k i := LZ (whole (frame_of m r)) theta i k.
Let fe j k := fun t => - entry l j (nth k y 0) (nth k w 0) t.
Let g u := - log_density n P m y w beta theta u.

Lemma predictor_lin u k : length u = d -> predictor m beta theta u k = lin d c V k u.
Proof. intros LU. unfold predictor. rewrite (ft_re _ _ _ _ _ _ _ F). unfold eta, lin. rewrite LU. reflexivity. Qed.

Lemma fe_chain j k t : (j < 4)%nat -> (k < n)%nat -> is_derive (fe j k) t (fe (S j) k t).
Proof. intros Hj _. unfold fe. apply (is_derive_opp (entry l j (nth k y 0) (nth k w 0))). now apply entry_chain. Qed.

Lemma g_parts u : length u = d -> g u = part n d c V fe 0 (fun _ => 1) u + quadratic d u + INR d * ln (sqrt (2 * PI)).
Proof.
  intros LU. unfold g, log_density. rewrite ln_std_normal, LU. unfold quadratic.
  assert (E : loglik (map (fun k => P (predictor m beta theta u k)) (seq 0 n)) y w = - part n d c V fe 0 (fun _ => 1) u).
  { rewrite (loglik_sum n) by (rewrite ?map_length, ?seq_length; first [reflexivity|exact (ft_ly _ _ _ _ _ _ _ F)|exact (ft_lw _ _ _ _ _ _ _ F)]).
    unfold part. rewrite <- sumR_opp. apply sumR_ext. intros k Hk. rewrite nth_map_seq by exact Hk. unfold fe, entry. cbn [faa].
    rewrite predictor_lin by exact LU. rewrite <- (mn0_P l P IL). unfold binomial1. cbn [nZ nadd nsub nmul nlog Rnum N]. ring. }
  rewrite E. field.
Qed.

Lemma tower_g : derivatives4 d g (g1 n d c V fe) (g2 n d c V fe) (g3 n d c V fe) (g4 n d c V fe).
Proof. exact (tower n d c V fe fe_chain g _ g_parts). Qed.
End Main.

Lemma vsum_sum v n : length v = n -> vsum v = sumR n (fun i => nth i v 0).
Proof. intros <-. unfold vsum. induction v as [|a v IH]; [reflexivity|]. cbn [length fold_right]. rewrite sumR_S, IH. reflexivity. Qed.
Lemma vmul_length a b : length a = length b -> length (vmul a b) = length a.
Proof. intros H. unfold vmul, map2. rewrite map_length, combine_length. lia. Qed.
Lemma vmul_nth a b i : length a = length b -> nth i (vmul a b) 0 = nth i a 0 * nth i b 0.
Proof.
  unfold vmul, map2. revert b i. induction a as [|x a IH]; intros [|z b] [|i] H; try discriminate H; cbn; try ring. apply IH. now injection H.
Qed.
Lemma vpow_nth v k i : (i < length v)%nat -> nth i (vpow v k) 0 = nth i v 0 ^ k.
Proof. intros H. unfold vpow. exact (nth_map' (fun x => x ^ k) v i 0 0 H). Qed.
Lemma vneg_nth v i : nth i (vneg v) 0 = - nth i v 0.
Proof. unfold vneg. revert i. induction v as [|x v IH]; intros [|i]; cbn; try (symmetry; apply Ropp_0); [reflexivity|apply IH]. Qed.
Lemma diag_nth m i : (i < length m)%nat -> nth i (diag m) 0 = at2 m i i.
Proof. intros H. unfold diag. now rewrite nth_map_seq by exact H. Qed.
Lemma crossprod_vec_nth n A v i : (i < n)%nat -> length A = n -> length v = n -> nth i (crossprod_vec n A v) 0 = sumR n (fun p => at2 A p i * nth p v 0).
Proof.
  intros Hi LA LV. unfold crossprod_vec, mvmul. rewrite (nth_map' _ _ i 0 []) by (now rewrite transpose_length).
  rewrite (vdot_sum _ _ n); [|rewrite transpose_row by exact Hi; exact LA|exact LV]. apply sumR_ext. intros p Hp.
  change (nth p (nth i (transpose n A) []) 0) with (at2 (transpose n A) i p). rewrite transpose_at by lia. reflexivity.
Qed.
Lemma crossprod_vec_length n A v : length (crossprod_vec n A v) = n.
Proof. unfold crossprod_vec, mvmul. now rewrite map_length, transpose_length. Qed.
Lemma mpow_at M k i j : (i < length M)%nat -> (j < length (nth i M []))%nat -> at2 (mpow M k) i j = at2 M i j ^ k.
Proof.
  intros Hi Hj. unfold at2, mpow. rewrite (nth_map' _ _ i [] []) by exact Hi. now rewrite vpow_nth by exact Hj.
Qed.

Lemma solve_inverse d c H G B X : MatrixSpec.are_inverse d H G -> solution d c H B X ->
  forall i j, (i < d)%nat -> (j < c)%nat -> at_ X i j = sumR d (fun k => at_ G i k * at_ B k j).
Proof.
  intros [_ [_ I]] [_ S] i j Hi Hj.
  transitivity (sumR d (fun k => at_ G i k * sumR d (fun a => at_ H k a * at_ X a j))); [|apply sumR_ext; intros k Hk; now rewrite S].
  transitivity (sumR d (fun a => sumR d (fun k => at_ G i k * at_ H k a) * at_ X a j)).
  - transitivity (sumR d (fun a => MatrixSpec.unit_entry i a * at_ X a j)); [symmetry; exact (sumR_delta d i (fun a => at_ X a j) Hi)|].
    apply sumR_ext. intros a Ha. f_equal. symmetry. exact (proj2 (I i a Hi Ha)).
  - transitivity (sumR d (fun a => sumR d (fun k => at_ G i k * at_ H k a * at_ X a j))); [apply sumR_ext; intros; symmetry; apply sumR_scal_r|].
    rewrite sumR_swap. apply sumR_ext. intros k _. rewrite <- sumR_scal. apply sumR_ext. intros. ring.
Qed.

Section Epsilon.
Variables (l : link) (P : R -> R) (n : nat) (m : modfr Rnum) (r : retrms Rnum) (y w theta beta : list R).
Hypothesis IL : inverse_link l P.
Hypothesis F : fits n m r y w theta beta.
Variables (solve : list (list R) -> list (list R) -> list (list R)) (H G : list (list R)) (u_hat : list R).
Hypothesis SV : solves solve (nrandom m) n H.
Hypothesis IV : MatrixSpec.are_inverse (nrandom m) H G.
Hypothesis LU : length u_hat = nrandom m.
Let d := nrandom m.
Let V k i := LZ (whole (frame_of m r)) theta i k.

Lemma LZ_sized L : find_LambdatThetaZt (theta ++ beta) r = Ok L -> sized d n L.
Proof.
  intros HL. destruct (find_LZ n m r theta beta (ft_proper _ _ _ _ _ _ _ F) (ft_re _ _ _ _ _ _ _ F) (ft_theta _ _ _ _ _ _ _ F) (ft_ltheta _ _ _ _ _ _ _ F)) as [L' [HL' [LL _]]].
  rewrite HL in HL'. injection HL' as <-. split; [exact LL|]. unfold find_LambdatThetaZt in HL.
  apply bindOk in HL. destruct HL as [t [_ HL]]. apply bindOk in HL. destruct HL as [x [_ HL]]. apply bindOk in HL. destruct HL as [LT [_ HL]]. injection HL as <-.
  intros row Hr. apply In_nth with (d := []) in Hr. destruct Hr as [i [Hi <-]]. rewrite mmul_length in Hi. rewrite mmul_row by exact Hi.
  exact (pr_cols _ _ (pr_re _ _ (ft_proper _ _ _ _ _ _ _ F) r (ft_re _ _ _ _ _ _ _ F))).
Qed.

Lemma find_M_at L o p : find_LambdatThetaZt (theta ++ beta) r = Ok L -> (o < n)%nat -> (p < n)%nat ->
  at2 (find_M solve n H L) o p = sumR d (fun i => sumR d (fun j => V o i * at_ G i j * V p j)).
Proof.
  intros HL Ho Hp. destruct (LZ_sized L HL) as [LL LR].
  destruct (find_LZ n m r theta beta (ft_proper _ _ _ _ _ _ _ F) (ft_re _ _ _ _ _ _ _ F) (ft_theta _ _ _ _ _ _ _ F) (ft_ltheta _ _ _ _ _ _ _ F)) as [L' [HL' [_ LA]]].
  rewrite HL in HL'. injection HL' as <-.
  pose proof (SV L (conj LL LR)) as S. destruct (proj1 S) as [XL XR].
  unfold find_M, crossprod. rewrite (mmul_at n _ _ o p d); [|now rewrite transpose_length|exact Hp|rewrite transpose_row by exact Ho; exact LL|exact XL].
  apply sumR_ext. intros i Hi. rewrite transpose_at by (try exact Ho; rewrite LL; exact Hi). rewrite LA by assumption.
  rewrite (solve_inverse d n H G L (solve H L) IV S i p Hi Hp : at2 (solve H L) i p = _).
  rewrite <- sumR_scal. apply sumR_ext. intros j Hj. change (at_ L j p) with (at2 L j p). rewrite LA by assumption. unfold V. ring.
Qed.
Lemma find_M_size L : length (find_M solve n H L) = n /\ forall i, (i < n)%nat -> length (nth i (find_M solve n H L) []) = n.
Proof. split; [unfold find_M, crossprod; now rewrite mmul_length, transpose_length|]. intros i Hi. unfold find_M, crossprod. rewrite mmul_row; [reflexivity|now rewrite transpose_length]. Qed.

Let M o p := sumR d (fun i => sumR d (fun j => V o i * at_ G i j * V p j)).
Let q j k := - entry_c l j (nth k y 0) (nth k w 0) (predictor m beta theta u_hat k).

Lemma epsilon_eval familyName linkName : make_family familyName linkName = Ok (mkFamily l Binomial) ->
  find_epsilon_1 solve familyName linkName (theta ++ beta) m r u_hat H =
  Ok (- (1 / 8) * sumR n (fun o => q 4 o * M o o ^ 2) + 1 / 12 * sumR n (fun o => sumR n (fun p => q 3 o * q 3 p * M o p ^ 3))
  + 1 / 8 * sumR n (fun o => sumR n (fun p => q 3 o * q 3 p * (M o o * M o p * M p p)))).
Proof.
  intros MF. destruct F as [PR RE N0 NT LT LB HY LY HW LW]. unfold find_epsilon_1. rewrite MF. cbn [bind].
  assert (LT' : length theta = length (rt_theta _ r)) by (rewrite LT; unfold ntheta; now rewrite RE).
  destruct (find_XBeta (theta ++ beta) m r) as [XB| | |] eqn:HX; try (rewrite (find_XBeta_eq theta beta m r LT' LB) in HX; discriminate HX).
  destruct (find_LambdatThetaZt (theta ++ beta) r) as [L| | |] eqn:HL; try (destruct (find_LZ n m r theta beta PR RE NT LT) as [L' [HL' _]]; rewrite HL in HL'; discriminate HL').
  cbn [bind]. assert (EN : length (cs_cols (rt_Zt Rnum r)) = n) by exact (pr_cols _ _ (pr_re _ _ PR r RE)). rewrite EN, HY. cbv beta iota zeta.
  assert (WE : match mo_weights Rnum m with Some (w :: ws) => w :: ws | _ => repeat 1 (length y) end = w).
  { rewrite HW. destruct (mo_weights _ m) as [[|a ws]|]; [subst w; cbn in LW; lia|reflexivity|now rewrite LY]. }
  match goal with |- context [evaluateThirdDerivative _ _ _ _ ?W] => change W with (match mo_weights Rnum m with Some (w :: ws) => w :: ws | _ => repeat 1 (@length R y) end); rewrite WE || (replace W with w by (symmetry; exact WE)) end. set (U := map (fun x => [x]) u_hat).
  assert (SU : sized d 1 U) by (split; [unfold U; rewrite map_length; exact LU|intros row Hr; apply in_map_iff in Hr; destruct Hr as [x [<- _]]; reflexivity]).
  assert (DU : draw U 0 = u_hat) by (unfold draw, U; rewrite map_map; cbn; apply map_id).
  set (e := find_eta n 1 U XB L).
  assert (EL : length e = n) by (rewrite <- (Nat.mul_1_r n); exact (proj2 (find_eta_nth n m r theta beta U 1 0 0 PR RE NT LT LB SU N0 Nat.lt_0_1 XB L HX HL))).
  assert (EA : forall k, (k < n)%nat -> nth k e 0 = predictor m beta theta u_hat k).
  { intros k Hk. rewrite <- DU. rewrite <- (proj1 (find_eta_nth n m r theta beta U 1 k 0 PR RE NT LT LB SU Hk Nat.lt_0_1 XB L HX HL)). f_equal. lia. }
  destruct (d3_entries l e y w) as [d3 [H3 [L3 K3]]]; [congruence|congruence|]. destruct (d4_entries l e y w) as [d4 [H4 [L4 K4]]]; [congruence|congruence|].
  rewrite H3, H4. cbn [bind]. f_equal.
  set (MM := find_M solve n H L). destruct (find_M_size L) as [ML MR]. fold MM in ML, MR.
  assert (MA : forall o p, (o < n)%nat -> (p < n)%nat -> at2 MM o p = M o p) by (intros; now apply find_M_at).
  set (c3 := vneg d3). set (c4 := vneg d4).
  assert (C3L : length c3 = n) by (unfold c3, vneg; rewrite map_length; exact (eq_trans L3 EL)).
  assert (C4L : length c4 = n) by (unfold c4, vneg; rewrite map_length; exact (eq_trans L4 EL)).
  assert (C3 : forall o, (o < n)%nat -> nth o c3 0 = q 3 o).
  { intros o Ho. unfold c3. rewrite vneg_nth. unfold q. rewrite <- EA by exact Ho. f_equal. apply K3. rewrite EL. exact Ho. }
  assert (C4 : forall o, (o < n)%nat -> nth o c4 0 = q 4 o).
  { intros o Ho. unfold c4. rewrite vneg_nth. unfold q. rewrite <- EA by exact Ho. f_equal. apply K4. rewrite EL. exact Ho. }
  assert (DL : length (diag MM) = n) by (unfold diag; now rewrite map_length, seq_length).
  assert (DA : forall o, (o < n)%nat -> nth o (diag MM) 0 = M o o) by (intros o Ho; rewrite diag_nth by lia; now apply MA).
  assert (GL : length (vmul c3 (diag MM)) = n) by (rewrite vmul_length; congruence).
  assert (GA : forall o, (o < n)%nat -> nth o (vmul c3 (diag MM)) 0 = q 3 o * M o o) by (intros o Ho; rewrite vmul_nth by congruence; now rewrite C3, DA).
  assert (K1 : vsum (vmul c4 (vpow (diag MM) 2)) = sumR n (fun o => q 4 o * M o o ^ 2)).
  { assert (PL : length (vpow (diag MM) 2) = n) by (unfold vpow; now rewrite map_length). rewrite (vsum_sum _ n) by (rewrite vmul_length; congruence).
    apply sumR_ext. intros o Ho. rewrite vmul_nth by congruence. rewrite C4, vpow_nth, DA by (try lia; assumption). reflexivity. }
  assert (K2 : vdot (vmul c3 (diag MM)) (crossprod_vec n MM (vmul c3 (diag MM))) = sumR n (fun o => sumR n (fun p => q 3 o * q 3 p * (M o o * M o p * M p p)))).
  { rewrite (vdot_sum _ _ n) by (try exact GL; apply crossprod_vec_length). rewrite sumR_swap. apply sumR_ext. intros o Ho. rewrite GA by exact Ho.
    rewrite crossprod_vec_nth by assumption. rewrite <- sumR_scal. apply sumR_ext. intros p Hp. rewrite MA, GA by assumption. ring. }
  assert (K3' : vdot c3 (crossprod_vec n (mpow MM 3) c3) = sumR n (fun o => sumR n (fun p => q 3 o * q 3 p * M o p ^ 3))).
  { rewrite (vdot_sum _ _ n) by (try exact C3L; apply crossprod_vec_length). rewrite sumR_swap. apply sumR_ext. intros o Ho. rewrite C3 by exact Ho.
    rewrite crossprod_vec_nth by (try assumption; unfold mpow; now rewrite map_length). rewrite <- sumR_scal. apply sumR_ext. intros p Hp.
    rewrite mpow_at by (rewrite ?MR; lia). rewrite MA, C3 by assumption. ring. }
  rewrite K1, K2, K3'. field.
Qed.
End Epsilon.

Theorem C52_second_order_main solve familyName linkName l P n m r y w theta beta H G u_hat :
  make_family familyName linkName = Ok (mkFamily l Binomial) -> inverse_link l P -> fits n m r y w theta beta ->
  solves solve (nrandom m) n H -> MatrixSpec.are_inverse (nrandom m) H G -> length u_hat = nrandom m ->
  (forall k, (k < n)%nat -> tiny < P (predictor m beta theta u_hat k) < 1 - tiny) ->
  let g u := - log_density n P m y w beta theta u in
  (exists f1 f2 f3 f4, derivatives4 (nrandom m) g f1 f2 f3 f4) /\
  forall f1 f2 f3 f4, derivatives4 (nrandom m) g f1 f2 f3 f4 ->
  find_epsilon_1 solve familyName linkName (theta ++ beta) m r u_hat H =
  Ok (second_order (nrandom m) (at_ G) (fun i j k => f3 i j k u_hat) (fun i j k l => f4 i j k l u_hat)).
Proof.
  intros MF IL F SV IV LU IN g. pose proof (tower_g l P n m r y w theta beta IL F) as T. split; [do 4 eexists; exact T|].
  intros f1 f2 f3 f4 D. rewrite (epsilon_eval l n m r y w theta beta F solve H G u_hat SV IV LU familyName linkName MF). f_equal.
  destruct (tower_unique _ _ _ _ _ _ _ _ _ _ D T) as [E3 E4].
  rewrite (second_order_ext _ (at_ G) (fun i j k => f3 i j k u_hat) (fun i j k l => f4 i j k l u_hat) _ _
    (fun i j k Hi Hj Hk => E3 i j k u_hat Hi Hj Hk LU) (fun i j k l Hi Hj Hk Hl => E4 i j k l u_hat Hi Hj Hk Hl LU)).
  set (V := fun k i => LZ (whole (frame_of m r)) theta i k).
  set (cl := fun k => sumR (length beta) (fun j => at2 (gd_X _ (whole (frame_of m r))) k j * nth j beta 0)).
  pose proof (contract n (nrandom m) (at_ G) V (fun o => - entry l 3 (nth o y 0) (nth o w 0) (lin (nrandom m) cl V o u_hat)) (fun o => - entry l 4 (nth o y 0) (nth o w 0) (lin (nrandom m) cl V o u_hat))) as K.
  cbv zeta in K. unfold g3, g4, part. fold V. fold cl. etransitivity; [|symmetry; exact K].
  assert (Q : forall j k, (k < n)%nat -> - entry_c l j (nth k y 0) (nth k w 0) (predictor m beta theta u_hat k) = - entry l j (nth k y 0) (nth k w 0) (lin (nrandom m) cl V k u_hat)).
  { intros j k Hk. rewrite entry_unclipped by (rewrite (mn0_P l P IL); now apply IN). rewrite (predictor_lin n m r y w theta beta F u_hat k LU). reflexivity. }
  f_equal; [f_equal|]; f_equal.
  - apply sumR_ext. intros o Ho. rewrite Q by exact Ho. reflexivity.
  - apply sumR_ext. intros o Ho. apply sumR_ext. intros p Hp. rewrite !Q by assumption. reflexivity.
  - apply sumR_ext. intros o Ho. apply sumR_ext. intros p Hp. rewrite !Q by assumption. reflexivity.
Qed.

Theorem C52_log_likelihood_main solve P n m r y w theta beta H G u_hat dev :
  (forall t, P t = logistic t) -> fits n m r y w theta beta ->
  solves solve (nrandom m) n H -> MatrixSpec.are_inverse (nrandom m) H G -> length u_hat = nrandom m ->
  (forall k, (k < n)%nat -> tiny < P (predictor m beta theta u_hat k) < 1 - tiny) ->
  lfun_Laplace solve 1 "binomial" "logit" dev (theta ++ beta) m r u_hat H = Ok (- dev / 2) /\
  forall f1 f2 f3 f4, derivatives4 (nrandom m) (fun u => - log_density n P m y w beta theta u) f1 f2 f3 f4 ->
  lfun_Laplace solve 2 "binomial" "logit" dev (theta ++ beta) m r u_hat H =
  Ok (- dev / 2 + second_order (nrandom m) (at_ G) (fun i j k => f3 i j k u_hat) (fun i j k l => f4 i j k l u_hat)).
Proof.
  intros HP F SV IV LU IN. split.
  - unfold lfun_Laplace, Reqb. destruct (Req_EM_T 1 1); [reflexivity|lra].
  - intros f1 f2 f3 f4 D. destruct (C52_second_order_main solve "binomial" "logit" Logit P n m r y w theta beta H G u_hat eq_refl (or_introl (conj eq_refl HP)) F SV IV LU IN) as [_ K].
    unfold lfun_Laplace, Reqb. destruct (Req_EM_T 2 1); [lra|]. destruct (Req_EM_T 2 2); [|lra]. unfold check_if_order_implemented, Rltb. destruct (Rlt_dec 2 2); [lra|].
    destruct (Rlt_dec 1 2); [|lra]. cbn [canonical_link existsb String.eqb Ascii.eqb Bool.eqb orb bind andb negb]. rewrite (K f1 f2 f3 f4 D). reflexivity.
Qed.

Lemma make_family_inv a b f : make_family a b = Ok f -> a = "binomial"%string /\ (b = "logit"%string \/ b = "probit"%string).
Proof.
  unfold make_family, link_initialize, familyGivenMean_initialize. destruct (String.eqb_spec b "logit") as [->|N1].
  - cbn [bind]. destruct (String.eqb_spec a "binomial") as [->|N]; [intros _; split; [reflexivity|now left]|discriminate].
  - destruct (String.eqb_spec b "probit") as [->|N2]; [|discriminate]. cbn [bind]. destruct (String.eqb_spec a "binomial") as [->|N]; [intros _; split; [reflexivity|now right]|discriminate].
Qed.

Theorem C52_order_main solve order familyName linkName dev x m r u_hat H v :
  lfun_Laplace solve order familyName linkName dev x m r u_hat H = Ok v ->
  order = 1 \/ order = 2 /\ familyName = "binomial"%string /\ linkName = "logit"%string.
Proof.
  unfold lfun_Laplace, Reqb. destruct (Req_EM_T order 1) as [E|N]; [intros _; now left|].
  intros K. apply bindOk in K. destruct K as [t [C K]]. destruct (Req_EM_T order 2) as [->|N2]; [|discriminate K].
  apply bindOk in K. destruct K as [e [HE _]]. right. split; [reflexivity|].
  unfold find_epsilon_1 in HE. apply bindOk in HE. destruct HE as [f [MF _]]. apply make_family_inv in MF. destruct MF as [-> [->| ->]]; [split; reflexivity|exfalso].
  unfold check_if_order_implemented, Rltb in C. destruct (Rlt_dec 2 2); [lra|]. destruct (Rlt_dec 1 2); [|lra]. discriminate C.
Qed.

Theorem C52_divergence_main d delta Sigma J : MatrixSpec.are_inverse d Sigma J -> MatrixSpec.symmetric d Sigma -> length delta = d ->
  forall a b, (forall i, (i < d)%nat -> nth i b 0 - nth i a 0 = sumR d (fun j => at_ Sigma i j * nth j delta 0)) ->
  find_laplace_divergence delta Sigma = MatrixSpec.quad d J a b / 2.
Proof.
  intros [[SL SR] [_ I]] SY LD a b HB. unfold find_laplace_divergence, MatrixSpec.quad. rewrite LD.
  rewrite (vsum_sum _ d) by (rewrite vmul_length; rewrite ?crossprod_vec_length; exact LD).
  transitivity (1 / 2 * sumR d (fun i => nth i delta 0 * sumR d (fun j => at_ Sigma i j * nth j delta 0))).
  - f_equal. apply sumR_ext. intros i Hi. rewrite vmul_nth by (rewrite crossprod_vec_length; exact LD). f_equal. rewrite crossprod_vec_nth by assumption.
    apply sumR_ext. intros j Hj. f_equal. exact (SY j i Hj Hi).
  - unfold Rdiv. rewrite Rmult_1_l, (Rmult_comm (sumR d _) (/ 2)). f_equal.
    transitivity (sumR d (fun i => (nth i b 0 - nth i a 0) * nth i delta 0)); [apply sumR_ext; intros i Hi; rewrite HB by exact Hi; ring|].
    apply sumR_ext. intros i Hi.
    transitivity ((nth i b 0 - nth i a 0) * sumR d (fun j => at_ J i j * (nth j b 0 - nth j a 0))); [|rewrite <- sumR_scal; apply sumR_ext; intros; ring].
    f_equal. transitivity (sumR d (fun k => MatrixSpec.unit_entry i k * nth k delta 0)); [symmetry; exact (sumR_delta d i (fun k => nth k delta 0) Hi)|].
    transitivity (sumR d (fun k => sumR d (fun j => at_ J i j * at_ Sigma j k) * nth k delta 0)); [apply sumR_ext; intros k Hk; f_equal; symmetry; exact (proj2 (I i k Hi Hk))|].
    transitivity (sumR d (fun k => sumR d (fun j => at_ J i j * at_ Sigma j k * nth k delta 0))); [apply sumR_ext; intros; symmetry; apply sumR_scal_r|].
    rewrite sumR_swap. apply sumR_ext. intros j Hj. rewrite HB by exact Hj. rewrite <- sumR_scal. apply sumR_ext. intros. ring.
Qed.

(** A clipped mean. *)
Definition case_hr : retrms Rnum := mkRe Rnum (mkCsc 1 [[(0%nat, 1)]]) [1] [1%Z] [Zero] (mkCsc 1 [[(0%nat, 1)]]).
Definition case_h : modfr Rnum := mkModfr Rnum [[1]] 1 (Some case_hr) (Numeric Rnum [0]) None.
Lemma case_h_fits b : fits 1 case_h case_hr [0] [1] [1] [b].
Proof.
  constructor; try reflexivity; try (cbn; lia). constructor; [reflexivity|cbn; intros; in_cases; subst; reflexivity|]. intros r [= <-].
  constructor; try reflexivity; cbn; intros; in_cases; subst; cbn in *; in_cases; subst; cbn; try lia. apply ss1.
Qed.
Lemma case_h_LZ : LZ (whole (frame_of case_h case_hr)) [1] 0 0 = 1.
Proof. unfold LZ, Lam, sumR, at2; cbn; change (Pos.to_nat 1) with 1%nat; cbn; ring. Qed.
Lemma case_h_predictor b x : predictor case_h [b] [1] [x] 0 = b + x.
Proof. unfold predictor, eta. cbn [mo_re case_h length]. rewrite !sumR_S. unfold sumR. cbn [seq map fold_right nth]. rewrite case_h_LZ. unfold at2. cbn. ring. Qed.
