(** Cases for C63, C64 and C65. *)
From Coq Require Import String List Reals Lia Lra Arith ZArith Bool Permutation ClassicalEpsilon.
From Verif Require Import Model.Base Model.Family Model.GLMM Model.SplitFrame Model.Items Model.Vectors Model.Mixed Model.ClusterGraph Model.MultiNormal Model.NormalSig
  Model.Quadrature Model.IntegratedFunction Model.SparseGrid Model.SparseStore Model.BasisLevel Model.LfunSR Model.Sequential
  Spec.Numbers Spec.FamilySpec Spec.GLMMSpec Spec.SplitSpec Spec.ISSpec Spec.MatrixSpec Spec.HermiteSpec Spec.LaplaceSpec Spec.NodalSpec Spec.GridSpec Spec.SplineSpec Spec.BeliefSpec Spec.TreeSpec
  Spec.IntegralSpec Spec.MixedSpec Spec.DensitySpec Spec.TotalSpec Spec.LfunSpec Spec.JointSpec Spec.SequentialSpec Spec.Toy
  Proofs.GLMMLemmas Proofs.VectorLemmas Proofs.SumLemmas Proofs.ListLemmas Proofs.SplitCases Proofs.QuantileMain Proofs.BasisMain Proofs.StoreCases Proofs.NormalCases Proofs.DensityJoint Proofs.JointCases Proofs.LfunCases Proofs.QuadratureCases Proofs.MessageLemmas Proofs.ClusterMain Proofs.LfunMain Proofs.SequentialMain Proofs.SequentialRun Proofs.SequentialTotal Proofs.CheckedMain Proofs.GridMain Proofs.GridSizes.
Import ListNotations.
Local Open Scope R_scope.

(** One contest between 0 and 1. *)
Definition contest : frame Rnum :=
  mkFrame Rnum [[1]] 1 (mkCsc 2 [[(0%nat, 1); (1%nat, -1)]])
    (mkCsc 2 [[(0%nat, 1)]; [(1%nat, 1)]]) [1%Z; 1%Z] (Numeric Rnum [1]) None.
(** Two observations in group 0, one in group 1. *)
Definition groups : frame Rnum :=
  mkFrame Rnum [[1]; [1]; [1]] 1 (mkCsc 2 [[(0%nat, 1)]; [(0%nat, 1)]; [(1%nat, 1)]])
    (mkCsc 2 [[(0%nat, 1)]; [(1%nat, 1)]]) [1%Z; 1%Z] (Numeric Rnum [1; 0; 1]) None.

Lemma contest_regular : regular contest /\ no_empty contest.
Proof.
  split; [constructor; cbn [contest fr_X fr_numFixed fr_Zt fr_Lambdat fr_Lind fr_response fr_weights response_vector cs_cols cs_rows]; try reflexivity|].
  - intros row [<-|[]]; reflexivity.
  - intros r c S. pose proof (stored_cols _ _ _ S) as L. cbn in L. destruct S as (x & S).
    destruct c as [|c]; cbn in S; [|lia]; destruct S as [S|[S|[]]]; injection S as <- _; lia.
  - intros r c S. pose proof (stored_cols _ _ _ S) as L. cbn in L. destruct S as (x & S).
    destruct c as [|[|c]]; cbn in S; [| |lia]; destruct S as [S|[]]; injection S as <- _; lia.
  - intros k Hk. exists 1. destruct k as [|[|k]]; cbn; [now left|now left|lia].
  - discriminate.
  - intros o Ho. cbn in Ho. destruct o as [|o]; [|lia]. exists 0%nat, 0%nat. split; exists 1; now left.
Qed.
Lemma groups_regular : regular groups /\ no_empty groups.
Proof.
  split; [constructor; cbn [groups fr_X fr_numFixed fr_Zt fr_Lambdat fr_Lind fr_response fr_weights response_vector cs_cols cs_rows]; try reflexivity|].
  - intros row [<-|[<-|[<-|[]]]]; reflexivity.
  - intros r c S. pose proof (stored_cols _ _ _ S) as L. cbn in L. destruct S as (x & S).
    destruct c as [|[|[|c]]]; cbn in S; [| | |lia]; destruct S as [S|[]]; injection S as <- _; lia.
  - intros r c S. pose proof (stored_cols _ _ _ S) as L. cbn in L. destruct S as (x & S).
    destruct c as [|[|c]]; cbn in S; [| |lia]; destruct S as [S|[]]; injection S as <- _; lia.
  - intros k Hk. exists 1. destruct k as [|[|k]]; cbn; [now left|now left|lia].
  - discriminate.
  - intros o Ho. cbn in Ho. destruct o as [|[|[|o]]]; [| | |lia].
    + exists 0%nat, 0%nat. split; exists 1; now left.
    + exists 0%nat, 0%nat. split; exists 1; now left.
    + exists 1%nat, 1%nat. split; exists 1; now left.
Qed.

Definition nowhere : elsewhere := mkElsewhere (fun _ _ => 0) (fun _ _ => []) (fun _ _ => []).
Definition small_setup r b := sequential_setup inv_all det_small (fun _ => true) (fun _ v => v) (fun A => A) (fun A => A) r b nowhere.
Definition small_lfun r b := sequential_lfun inv_all det_small (fun _ => true) (fun _ v => v) (fun A => A) (fun A => A) r b nowhere.
Definition scopes_of (s : sr sparse_belief) : list (list Z) := map (sr_scope sparse_belief stored_items) (sr_beliefs _ s).

Lemma contest_setup r b : match small_setup r b contest 1 "binomial" "logit" 3 with Ok s => Some (scopes_of s) | _ => None end = Some [[0; 1]; [0]; [1]]%Z.
Proof. lazy. reflexivity. Qed.
Lemma groups_setup r b : match small_setup r b groups 1 "binomial" "logit" 3 with Ok s => Some (scopes_of s) | _ => None end
  = Some [[0]; [1]; [0]; [1]]%Z.
Proof. lazy. reflexivity. Qed.

(** Precisions 2 and 2, and -1 or 0 beside the diagonal. *)
Definition contest_Q (x y : Z) : R := if Z.eqb x y then 2 else -1.
Definition contest_Sigma (x y : Z) : R := if Z.eqb x y then 2 / 3 else 1 / 3.
Definition groups_Q (x y : Z) : R := if Z.eqb x y then 2 else 0.
Definition groups_Sigma (x y : Z) : R := if Z.eqb x y then 1 / 2 else 0.
Definition zero_mean (e : Z) : R := nth (Z.to_nat e) [0; 0] 0.

Lemma contest_joint : joint_precision [[0; 1]; [0]; [1]]%Z [0; 1]%Z contest_Q /\ joint_variance [0; 1]%Z contest_Q contest_Sigma.
Proof.
  split; [constructor|].
  - intros x y _ _. unfold contest_Q. rewrite (Z.eqb_sym x y). reflexivity.
  - intros w Hw. unfold joint_form, lsumR, contest_Q. cbn.
    assert (0 < w 0%Z * w 0%Z \/ 0 < w 1%Z * w 1%Z).
    { destruct Hw as (x & [<-|[<-|[]]] & Hx); [left|right]; exact (Rlt_0_sqr _ Hx). }
    assert (0 <= (w 0%Z - w 1%Z) * (w 0%Z - w 1%Z)) by apply Rle_0_sqr.
    assert (0 <= w 0%Z * w 0%Z) by apply Rle_0_sqr. assert (0 <= w 1%Z * w 1%Z) by apply Rle_0_sqr. nra.
  - intros x y Hx Hy _ _. exists [0; 1]%Z. split; [now left|]. auto.
  - intros x z [<-|[<-|[]]] [<-|[<-|[]]]; unfold lsumR, contest_Q, contest_Sigma; cbn; lra.
Qed.
Lemma groups_joint : joint_precision [[0]; [1]; [0]; [1]]%Z [0; 1]%Z groups_Q /\ joint_variance [0; 1]%Z groups_Q groups_Sigma.
Proof.
  split; [constructor|].
  - intros x y _ _. unfold groups_Q. rewrite (Z.eqb_sym x y). reflexivity.
  - intros w Hw. unfold joint_form, lsumR, groups_Q. cbn.
    assert (0 < w 0%Z * w 0%Z \/ 0 < w 1%Z * w 1%Z).
    { destruct Hw as (x & [<-|[<-|[]]] & Hx); [left|right]; exact (Rlt_0_sqr _ Hx). }
    assert (0 <= w 0%Z * w 0%Z) by apply Rle_0_sqr. assert (0 <= w 1%Z * w 1%Z) by apply Rle_0_sqr. nra.
  - intros x y Hx Hy Hne H. exfalso. apply H. unfold groups_Q. now rewrite (proj2 (Z.eqb_neq x y) Hne).
  - intros x z [<-|[<-|[]]] [<-|[<-|[]]]; unfold lsumR, groups_Q, groups_Sigma; cbn; lra.
Qed.

Lemma subsets (C : list Z) : NoDup C -> C <> [] -> incl C [0; 1]%Z -> C = [0]%Z \/ C = [1]%Z \/ C = [0; 1]%Z \/ C = [1; 0]%Z.
Proof.
  intros N Ne H. pose proof (NoDup_incl_length N H) as L. cbn in L.
  destruct C as [|x [|y [|z C]]]; [congruence| | |cbn in L; lia].
  - destruct (H x (or_introl eq_refl)) as [<-|[<-|[]]]; auto.
  - assert (x <> y). { intros ->. inversion N as [|? ? N']. apply N'. now left. }
    destruct (H x (or_introl eq_refl)) as [<-|[<-|[]]]; destruct (H y (or_intror (or_introl eq_refl))) as [<-|[<-|[]]]; auto; congruence.
Qed.
Lemma ln_le x : 0 < x -> ln x <= x - 1.
Proof. intros H. pose proof (exp_ineq1_le (ln x)) as E. rewrite exp_ln in E by exact H. lra. Qed.
Lemma not_proper c d : 0 < d -> d < 1 + 9 / 5 * c -> 0 < c -> - c * logSqrtTwoPi + 1 / 2 * ln d <> 0.
Proof. intros Hd Hc Hp. pose proof (ln_le d Hd). unfold logSqrtTwoPi. nra. Qed.

Lemma one_matrix (A : rmat) : MatrixSpec.square 1 A -> exists a, A = [[a]].
Proof.
  intros [L H]. destruct A as [|u [|]]; try discriminate. pose proof (H 0%nat ltac:(lia)) as H0. cbn in H0.
  destruct u as [|a [|]]; try discriminate. eauto.
Qed.
Lemma two_matrix (A : rmat) : MatrixSpec.square 2 A -> exists a b c d, A = [[a; b]; [c; d]].
Proof.
  intros [L H]. destruct A as [|u [|v [|]]]; try discriminate. pose proof (H 0%nat ltac:(lia)) as H0. pose proof (H 1%nat ltac:(lia)) as H1. cbn in H0, H1.
  destruct u as [|a [|b [|]]]; try discriminate. destruct v as [|c [|d [|]]]; try discriminate. eauto 10.
Qed.
Lemma inverse_sym d A B : are_inverse d A B -> are_inverse d B A.
Proof. intros (H1 & H2 & H3). split; [exact H2|]. split; [exact H1|]. intros i j Hi Hj. destruct (H3 i j Hi Hj). auto. Qed.

Lemma small_proper (Sigma : Z -> Z -> R) a b : (forall x y, Sigma x y = if Z.eqb x y then a else b) ->
  / 2 <= a -> b * b <= a * a - 1 / 4 -> proper_marginals det_small [0; 1]%Z zero_mean Sigma.
Proof.
  intros HS Ha Hab C n N Ne Hi (_ & I & En).
  assert (H1 : / a <= 2). { rewrite <- (Rinv_inv 2). apply Rinv_le_contravar; lra. }
  assert (H2 : / (a * a - b * b) <= 4). { replace 4 with (/ (1 / 4)) by field. apply Rinv_le_contravar; lra. }
  assert (P1 : 0 < / a) by (apply Rinv_0_lt_compat; lra). assert (P2 : 0 < / (a * a - b * b)) by (apply Rinv_0_lt_compat; lra).
  apply inverse_sym in I.
  assert (One : forall x, C = [x] -> - INR (length C) * logSqrtTwoPi + 1 / 2 * ln (det_small (no_precision n)) <> 0).
  { intros x ->. pose proof (inv_all_small _ _ _ I ltac:(cbn; lia)) as <-. destruct (one_matrix _ (proj1 I)) as (a' & Ea). rewrite Ea in *.
    specialize (En 0%nat 0%nat ltac:(cbn; lia) ltac:(cbn; lia)). cbn in En. rewrite HS, Z.eqb_refl in En. unfold MatrixSpec.entry in En. cbn in En. subst a'.
    cbn [length]. apply not_proper; cbn; lra. }
  assert (Two : forall x y, x <> y -> C = [x; y] -> - INR (length C) * logSqrtTwoPi + 1 / 2 * ln (det_small (no_precision n)) <> 0).
  { intros x y Hxy ->. pose proof (inv_all_small _ _ _ I ltac:(cbn; lia)) as E. destruct (two_matrix _ (proj1 I)) as (p & q & s & t & Ea). rewrite Ea in *.
    pose proof (En 0%nat 0%nat ltac:(cbn; lia) ltac:(cbn; lia)) as E00. pose proof (En 0%nat 1%nat ltac:(cbn; lia) ltac:(cbn; lia)) as E01.
    pose proof (En 1%nat 0%nat ltac:(cbn; lia) ltac:(cbn; lia)) as E10. pose proof (En 1%nat 1%nat ltac:(cbn; lia) ltac:(cbn; lia)) as E11.
    cbn [nth] in E00, E01, E10, E11. rewrite HS in E00, E01, E10, E11. rewrite Z.eqb_refl in E00, E11.
    rewrite (proj2 (Z.eqb_neq x y) Hxy) in E01. rewrite (proj2 (Z.eqb_neq y x) (not_eq_sym Hxy)) in E10.
    unfold MatrixSpec.entry in *. cbn in E00, E01, E10, E11. subst p q s t. rewrite <- E. cbn [length].
    assert (Ed : det_small (inv_all [[a; b]; [b; a]]) = / (a * a - b * b)). { cbn. field. lra. }
    rewrite Ed. apply not_proper; cbn; lra. }
  destruct (subsets C N Ne Hi) as [E|[E|[E|E]]]; [eapply One; eauto|eapply One; eauto|apply (Two 0%Z 1%Z); auto; lia|apply (Two 1%Z 0%Z); auto; lia].
Qed.

Definition small_approx (Q : Z -> Z -> R) (ll : R) (pars : list R) : R * rvec * (Z -> Z -> R) := (ll, [0; 0], Q).
Lemma small_run r fr Q scopes : regular fr /\ no_empty fr -> (1 <= length (cs_cols (fr_Zt _ fr)))%nat -> cs_rows (fr_Zt _ fr) = 2%nat ->
  fr_numFixed _ fr = 1%nat -> (forall i, In i (fr_Lind _ fr) -> i = 1%Z) ->
  (forall r b, match small_setup r b fr 1 "binomial" "logit" 3 with Ok s => Some (scopes_of s) | _ => None end = Some scopes) ->
  exists b s v, basis_new quantile some_inverse some_solve 3 = Ok b /\ small_setup r b fr 1 "binomial" "logit" 3 = Ok s /\
  scopes_of s = scopes /\ small_lfun r b (small_approx Q (2 * v)) s [1; 0] = Ok v.
Proof.
  intros [Reg Ne] Obs Rows Nf HL Hset.
  destruct (real_basis quantile some_inverse some_solve 3 quantile_normal ltac:(lia) some_inverse_inverts some_solve_solves)
    as (b & x & phi & p1 & p2 & E & TB & NB & _ & X0 & _).
  exists b. pose proof (Hset r b) as Hs. destruct (small_setup r b fr 1 "binomial" "logit" 3) as [s|e| |] eqn:Es; try discriminate.
  injection Hs as Hs. exists s.
  destruct (C57_sequential_main inv_all det_small (fun _ => true) (fun _ v => v) (fun A => A) (fun A => A) r b nowhere 3 _ x phi TB NB fr 1 Logit 3 s Reg Ne Obs)
    with (pars := [1; 0]) (mean := [0; 0]) (prec := Q) as [(v & Hv)|((y & Hy) & _)]; try discriminate.
  - lia.
  - intros i Hi. rewrite (HL i Hi). lia.
  - exact Es.
  - rewrite Nf. reflexivity.
  - now rewrite Rows.
  - exists v. split; [exact E|]. split; [reflexivity|]. split; [exact Hs|].
    apply (Hv (small_approx Q (2 * v)) (2 * v) eq_refl). right. field.
Qed.

(** * A normal with normalizing constant one *)
(** One observation, with one random effect. *)
Definition alone : frame Rnum :=
  mkFrame Rnum [[1]] 1 (mkCsc 1 [[(0%nat, 1)]]) (mkCsc 1 [[(0%nat, 1)]]) [1%Z] (Numeric Rnum [1]) None.
Lemma alone_regular : regular alone /\ no_empty alone.
Proof.
  split; [constructor; cbn [alone fr_X fr_numFixed fr_Zt fr_Lambdat fr_Lind fr_response fr_weights response_vector cs_cols cs_rows]; try reflexivity|].
  - intros row [<-|[]]; reflexivity.
  - intros r c S. pose proof (stored_cols _ _ _ S) as L. cbn in L. destruct S as (x & S).
    destruct c as [|c]; cbn in S; [|lia]; destruct S as [S|[]]; injection S as <- _; lia.
  - intros r c S. pose proof (stored_cols _ _ _ S) as L. cbn in L. destruct S as (x & S).
    destruct c as [|c]; cbn in S; [|lia]; destruct S as [S|[]]; injection S as <- _; lia.
  - intros k Hk. exists 1. destruct k as [|k]; cbn; [now left|lia].
  - discriminate.
  - intros o Ho. cbn in Ho. destruct o as [|o]; [|lia]. exists 0%nat, 0%nat. split; exists 1; now left.
Qed.
Lemma alone_setup r b : match small_setup r b alone 1 "binomial" "logit" 3 with Ok s => Some (scopes_of s) | _ => None end = Some [[0]; [0]]%Z.
Proof. lazy. reflexivity. Qed.
Definition alone_Q (x y : Z) : R := exp (2 * logSqrtTwoPi).
Definition alone_Sigma (x y : Z) : R := / exp (2 * logSqrtTwoPi).
Lemma alone_joint : joint_precision [[0]; [0]]%Z [0]%Z alone_Q /\ joint_variance [0]%Z alone_Q alone_Sigma.
Proof.
  pose proof (exp_pos (2 * logSqrtTwoPi)) as Hp. split; [constructor|].
  - reflexivity.
  - intros w (x & [<-|[]] & Hx). unfold joint_form, lsumR, alone_Q. cbn. pose proof (Rlt_0_sqr _ Hx) as H. unfold Rsqr in H. nra.
  - intros x y [<-|[]] [<-|[]]; congruence.
  - intros x z [<-|[]] [<-|[]]. unfold lsumR, alone_Q, alone_Sigma. cbn. rewrite Rplus_0_r. apply Rinv_r. lra.
Qed.
Definition alone_approx (ll : R) (pars : list R) : R * rvec * (Z -> Z -> R) := (ll, [0], alone_Q).
Lemma alone_edges r b : match (s <- small_setup r b alone 1 "binomial" "logit" 3 ;;
   let p := pars_of sparse_belief s [1; 0] in
   cg <- sr_graph inv_all det_small (fun _ => true) sparse_belief stored_items (stored_eval b nowhere) (stored_deriv b nowhere) (stored_deriv2 b nowhere)
     (integrate_and_store inv_all det_small (fun _ v => v) (fun A => A) (fun A => A) r b) p (sr_beliefs _ s) ;;
   cg1 <- cg_setNormalApprox cg [0] alone_Q ;; Ok (length (cg_edges cg1))) with Ok n => Some n | _ => None end = Some 0%nat.
Proof. lazy. reflexivity. Qed.

Definition one_rule : rmat -> rvec * rmat := fun _ => ([0], [[1]]).
Lemma C63_improper_main : exists b s v, basis_new quantile some_inverse some_solve 3 = Ok b /\
  let r := rule_initialize one_rule 1 in
  small_setup r b alone 1 "binomial" "logit" 3 = Ok s /\ small_lfun r b (alone_approx (2 * v)) s [1; 0] = Ok v /\
  joint_precision (scopes_of s) (effects alone) alone_Q /\ joint_variance (effects alone) alone_Q alone_Sigma /\
  v = items_laplace (effects alone) (joint_density logistic alone [0] [1]) (fun e => nth (Z.to_nat e) [0] 0) alone_Q
      + INR 1 * (ln (sqrt (2 * PI)) - logSqrtTwoPi + ln (sqrtPi / sqrt PI)) + logSqrtTwoPi.
Proof.
  destruct (real_basis quantile some_inverse some_solve 3 quantile_normal ltac:(lia) some_inverse_inverts some_solve_solves)
    as (b & x & phi & p1 & p2 & E & TB & NB & _ & X0 & _).
  set (r := rule_initialize one_rule 1).
  pose proof (alone_setup r b) as Hs. destruct (small_setup r b alone 1 "binomial" "logit" 3) as [s|e| |] eqn:Es; try discriminate. injection Hs as Hs.
  destruct alone_regular as [Reg Ne]. destruct alone_joint as [J JV].
  assert (Obs : (1 <= length (cs_cols (fr_Zt Rnum alone)))%nat) by (cbn; lia).
  assert (HLi : forall i, In i (fr_Lind Rnum alone) -> (1 <= i <= Z.of_nat 1)%Z) by (intros i [<-|[]]; lia).
  assert (HP : inverse_link Logit logistic) by (left; auto).
  destruct (C57_sequential_main inv_all det_small (fun _ => true) (fun _ v => v) (fun A => A) (fun A => A) r b nowhere 3 _ x phi TB NB alone 1 Logit 3 s Reg Ne Obs
    ltac:(lia) HLi Es [1; 0] [0] alone_Q eq_refl eq_refl) as [(v & Hv)|((y & Hy) & _)]; [|discriminate].
  pose proof (proj1 (Hv (alone_approx (2 * v)) (2 * v) eq_refl) ltac:(lra)) as Run.
  exists b, s, v. split; [exact E|]. cbv zeta. fold r. split; [exact Es|]. split; [exact Run|]. rewrite Hs. split; [exact J|]. split; [exact JV|].
  destruct (run_parts inv_all det_small (fun _ => true) (fun _ v => v) (fun A => A) (fun A => A) r b nowhere det_small_1 alone 1 Logit logistic 3 s Reg Ne Obs
    ltac:(lia) HLi HP Es (alone_approx (2 * v)) [1; 0] v (2 * v) [0] alone_Q Run eq_refl) as (cg & Hg & Hc & Sc & Hi & Val).
  set (p := pars_of sparse_belief s [1; 0]) in *.
  pose proof (alone_edges r b) as Ed. rewrite Es in Ed. cbn [bind] in Ed. cbv zeta in Ed. fold p in Ed.
  unfold sr_graph in Ed. unfold build in Hg.
  match type of Ed with match bind ?g _ with _ => _ end = _ => assert (Eg : g = Ok cg) by exact Hg end.
  rewrite Eg in Ed. cbn [bind] in Ed.
  match type of Ed with match bind ?o _ with _ => _ end = _ => destruct o as [cg1|e| |] eqn:E1; try discriminate end.
  cbn [bind] in Ed.
  assert (Ed' : cg_edges cg1 = []) by (revert Ed; match goal with |- context [length ?l] => destruct l end; [reflexivity|discriminate]).
  pose proof (improper_one inv_all det_small (fun _ => true) (sr_belief sparse_belief) (sr_scope sparse_belief stored_items)
    (sr_eval sparse_belief (stored_eval b nowhere) p) (sr_deriv sparse_belief (stored_deriv b nowhere) p) (sr_deriv2 sparse_belief (stored_deriv2 b nowhere) p) _ inv_all_inverts r
    (storage inv_all det_small (fun _ v => v) (fun A => A) (fun A => A) r b nowhere 3 _ x phi inv_all_inverts TB NB X0 ltac:(auto) p)
    (fun e => nth (Z.to_nat e) [0] 0) alone_Sigma one_rule [0] [[1]] eq_refl one_point_rule (sr_beliefs _ s) 0%Z cg cg1 [0] alone_Q v eq_refl eq_refl Sc) as G.
  rewrite G; auto.
  - pose proof (Val (fun e => nth (Z.to_nat e) [0] 0)) as V0. cbn [firstn skipn] in V0.
    etransitivity; [exact (f_equal (fun a => a + ln (sqrt 2 * sqrtPi)) V0)|].
    unfold items_laplace. rewrite (c0_eq : ln (sqrt 2 * sqrtPi) = _).
    assert (Ed1 : det (length (effects alone)) (fun i j => alone_Q (nth i (effects alone) 0%Z) (nth j (effects alone) 0%Z)) = exp (2 * logSqrtTwoPi)).
    { unfold alone_Q. cbn. ring. }
    rewrite Ed1, ln_exp. cbn [effects length map seq alone fr_Zt cs_rows INR]. field.
  - exact (eq_ind_r (fun sc => joint_precision sc [0%Z] alone_Q) J Hs).
  - unfold alone_Q. cbn [det_small]. rewrite ln_exp. cbn [INR]. field.
Qed.

Lemma contest_case : exists b s v, basis_new quantile some_inverse some_solve 3 = Ok b /\
  let r := rule_initialize one_rule 1 in
  small_setup r b contest 1 "binomial" "logit" 3 = Ok s /\ small_lfun r b (small_approx contest_Q (2 * v)) s [1; 0] = Ok v /\
  joint_precision (scopes_of s) (effects contest) contest_Q /\ joint_variance (effects contest) contest_Q contest_Sigma /\
  proper_marginals det_small (effects contest) zero_mean contest_Sigma.
Proof.
  destruct (small_run (rule_initialize one_rule 1) contest contest_Q [[0; 1]; [0]; [1]]%Z contest_regular ltac:(cbn; lia) eq_refl eq_refl
    ltac:(intros i [<-|[<-|[]]]; reflexivity) contest_setup) as (b & s & v & E1 & E2 & E3 & E4).
  exists b, s, v. cbv zeta. rewrite E3. split; [exact E1|]. split; [exact E2|]. split; [exact E4|].
  split; [apply contest_joint|]. split; [apply contest_joint|]. apply (small_proper _ (2 / 3) (1 / 3)); [reflexivity|lra|lra].
Qed.
Definition two_rule : rmat -> rvec * rmat := fun _ => (lam2, Q2).
Lemma groups_case : exists b s v, basis_new quantile some_inverse some_solve 3 = Ok b /\
  let r := rule_initialize two_rule 2 in
  small_setup r b groups 1 "binomial" "logit" 3 = Ok s /\ small_lfun r b (small_approx groups_Q (2 * v)) s [1; 0] = Ok v /\
  (forall c, In c (scopes_of s) -> (length c <= 1)%nat) /\
  joint_precision (scopes_of s) (effects groups) groups_Q /\ joint_variance (effects groups) groups_Q groups_Sigma /\
  proper_marginals det_small (effects groups) zero_mean groups_Sigma.
Proof.
  destruct (small_run (rule_initialize two_rule 2) groups groups_Q [[0]; [1]; [0]; [1]]%Z groups_regular ltac:(cbn; lia) eq_refl eq_refl
    ltac:(intros i [<-|[<-|[]]]; reflexivity) groups_setup) as (b & s & v & E1 & E2 & E3 & E4).
  exists b, s, v. cbv zeta. rewrite E3. split; [exact E1|]. split; [exact E2|]. split; [exact E4|].
  split; [intros c [<-|[<-|[<-|[<-|[]]]]]; cbn; lia|].
  split; [apply groups_joint|]. split; [apply groups_joint|]. apply (small_proper _ (1 / 2) 0); [reflexivity|lra|lra].
Qed.

(** * Routines that return the right sizes *)
Definition sized_inverse (A : rmat) : rmat := if excluded_middle_informative (exists B, are_inverse (length A) A B) then inv_all A else A.
Definition sized_elsewhere : elsewhere := mkElsewhere (fun _ _ => 0) (fun _ x => x) (fun _ x => midentity (length x)).
Lemma sized_inverse_inverts d A : inverts sized_inverse d A.
Proof.
  intros B H. unfold sized_inverse. assert (L : length A = d) by apply H. rewrite L. destruct (excluded_middle_informative _) as [_|N]; [now apply (inv_all_inverts d)|].
  exfalso. apply N. now exists B.
Qed.
Lemma sized_right : right_sizes sized_inverse (fun _ v => v) (fun A => A) (fun A => A) sized_elsewhere.
Proof.
  constructor; auto.
  - intros d A Hd S. unfold sized_inverse. destruct (excluded_middle_informative _) as [(B & H)|_]; [|exact S].
    rewrite (inv_all_inverts _ A B H). assert (L : length A = d) by apply S. rewrite <- L. apply H.
  - intros s x. apply midentity_square.
Qed.
Definition checked_integral r b := checked (integrate_and_store sized_inverse det_small (fun _ v => v) (fun A => A) (fun A => A) r b).
Definition checked_setup r b := find_lfun_SR sized_inverse det_small (fun _ => true) sparse_belief stored_items
  (stored_eval b sized_elsewhere) (stored_deriv b sized_elsewhere) (stored_deriv2 b sized_elsewhere) (checked_integral r b).
Definition checked_lfun r b := lfun_SR sized_inverse det_small (fun _ => true) sparse_belief stored_items
  (stored_eval b sized_elsewhere) (stored_deriv b sized_elsewhere) (stored_deriv2 b sized_elsewhere) (checked_integral r b).
Lemma checked_contest_setup r b : match checked_setup r b contest 1 "binomial" "logit" 3 with Ok s => Some (scopes_of s) | _ => None end = Some [[0; 1]; [0]; [1]]%Z.
Proof. lazy. reflexivity. Qed.
Lemma checked_case r : exists b s v, basis_new quantile some_inverse some_solve 3 = Ok b /\
  checked_setup r b contest 1 "binomial" "logit" 3 = Ok s /\ scopes_of s = [[0; 1]; [0]; [1]]%Z /\
  checked_lfun r b (small_approx contest_Q (2 * v)) s [1; 0] = Ok v.
Proof.
  destruct (real_basis quantile some_inverse some_solve 3 quantile_normal ltac:(lia) some_inverse_inverts some_solve_solves)
    as (b & x & phi & p1 & p2 & E & _).
  exists b. pose proof (checked_contest_setup r b) as Hs. destruct (checked_setup r b contest 1 "binomial" "logit" 3) as [s|e| |] eqn:Es; try discriminate.
  injection Hs as Hs. exists s. destruct contest_regular as [Reg Ne].
  destruct (C65_main quantile some_inverse some_solve 3 b quantile_normal ltac:(lia) some_inverse_inverts some_solve_solves E
    sized_inverse det_small (fun _ => true) (fun _ v => v) (fun A => A) (fun A => A) sized_elsewhere r sized_right contest 1 Logit 3 s Reg Ne)
    with (pars := [1; 0]) (mean := [0; 0]) (prec := contest_Q) as [(v & Hv)|((y & Hy) & _)]; try discriminate.
  - cbn. lia.
  - lia.
  - intros i [<-|[<-|[]]]; lia.
  - exact Es.
  - reflexivity.
  - reflexivity.
  - exists v. split; [exact E|]. split; [reflexivity|]. split; [exact Hs|].
    apply (Hv (small_approx contest_Q (2 * v)) (2 * v) eq_refl). right. field.
Qed.

(** * Limited grids *)
Definition limited_integral r b := limited 500000 3 (integrate_and_store inv_all det_small (fun _ v => v) (fun A => A) (fun A => A) r b).
Definition limited_setup r b := find_lfun_SR inv_all det_small (fun _ => true) sparse_belief stored_items
  (stored_eval b nowhere) (stored_deriv b nowhere) (stored_deriv2 b nowhere) (limited_integral r b).
Definition limited_lfun r b := lfun_SR inv_all det_small (fun _ => true) sparse_belief stored_items
  (stored_eval b nowhere) (stored_deriv b nowhere) (stored_deriv2 b nowhere) (limited_integral r b).
Lemma limited_contest_setup r b : match limited_setup r b contest 1 "binomial" "logit" 3 with Ok s => Some (scopes_of s) | _ => None end = Some [[0; 1]; [0]; [1]]%Z.
Proof. lazy. reflexivity. Qed.
Lemma limited_case r : exists b s v, basis_new quantile some_inverse some_solve 3 = Ok b /\
  limited_setup r b contest 1 "binomial" "logit" 3 = Ok s /\ scopes_of s = [[0; 1]; [0]; [1]]%Z /\
  limited_lfun r b (small_approx contest_Q (2 * v)) s [1; 0] = Ok v.
Proof.
  destruct (real_basis quantile some_inverse some_solve 3 quantile_normal ltac:(lia) some_inverse_inverts some_solve_solves)
    as (b & x & phi & p1 & p2 & E & _).
  exists b. pose proof (limited_contest_setup r b) as Hs. destruct (limited_setup r b contest 1 "binomial" "logit" 3) as [s|e| |] eqn:Es; try discriminate.
  injection Hs as Hs. exists s. destruct contest_regular as [Reg Ne].
  destruct (C66_main quantile some_inverse some_solve 3 b quantile_normal ltac:(lia) some_inverse_inverts some_solve_solves E
    inv_all det_small (fun _ => true) (fun _ v => v) (fun A => A) (fun A => A) nowhere r contest 1 Logit s Reg Ne)
    with (pars := [1; 0]) (mean := [0; 0]) (prec := contest_Q) as [(v & Hv)|((y & Hy) & _)]; try discriminate.
  - cbn. lia.
  - lia.
  - intros i [<-|[<-|[]]]; lia.
  - exact Es.
  - reflexivity.
  - reflexivity.
  - exists v. split; [exact E|]. split; [reflexivity|]. split; [exact Hs|].
    apply (Hv (small_approx contest_Q (2 * v)) (2 * v) eq_refl). right. field.
Qed.
Lemma small_grid_49 limit nSL (items : list Z) : small_grid limit nSL items -> nSL = 3%nat -> length items = 2%nat -> (49 <= limit)%Z.
Proof.
  intros H -> L. destruct (C13_main 2 3) as (all & Hn & Ha & Hlen). change (length all = 49%nat) in Hlen.
  specialize (H all Hn). rewrite Hlen, L in H. apply H. intros l p Hp. now apply Ha.
Qed.
Lemma same_scopes : exists (fs1 fs2 : list (B toy)), fs1 <> fs2 /\ map (bscope toy) fs1 = map (bscope toy) fs2 /\ (forall f, In f fs1 -> NoDup (bscope toy f)).
Proof.
  exists [factor [1; 2]%Z zsum; factor [2; 3]%Z zsum], [factor [1; 2]%Z (fun _ => 0%Z); factor [2; 3]%Z zsum]. split.
  - intros E. assert (E2 : beval toy (factor [1; 2]%Z zsum) [1; 1]%Z = beval toy (factor [1; 2]%Z (fun _ => 0%Z)) [1; 1]%Z) by
      exact (f_equal (fun l => match l with f :: _ => beval toy f [1; 1]%Z | [] => 0%Z end) E). discriminate E2.
  - split; [reflexivity|]. intros f [<-|[<-|[]]]; cbn; repeat constructor; cbn; intuition discriminate.
Qed.
