(** C66: grids are within the limit on complexity. *)
From Coq Require Import String List Reals Lia Lra Arith ZArith Bool Permutation ClassicalEpsilon.
From Verif Require Import Model.Base Model.Family Model.GLMM Model.SplitFrame Model.Items Model.Vectors Model.Mixed Model.ClusterGraph Model.MultiNormal Model.NormalSig
  Model.Counting Model.Quadrature Model.IntegratedFunction Model.SparseGrid Model.SparseStore Model.BasisLevel Model.LfunSR Model.Sequential
  Spec.Numbers Spec.FamilySpec Spec.GLMMSpec Spec.SplitSpec Spec.ISSpec Spec.MatrixSpec Spec.HermiteSpec Spec.LaplaceSpec Spec.NodalSpec Spec.GridSpec Spec.SplineSpec Spec.BeliefSpec Spec.TreeSpec
  Spec.IntegralSpec Spec.MixedSpec Spec.DensitySpec Spec.TotalSpec Spec.LfunSpec Spec.JointSpec Spec.SequentialSpec
  Proofs.GLMMLemmas Proofs.VectorLemmas Proofs.SumLemmas Proofs.ListLemmas Proofs.ClusterMain Proofs.MessageLemmas Proofs.NormalMain
  Proofs.CountLemmas Proofs.GridMain Proofs.SparseMain Proofs.ConditionalMain Proofs.StoreMain Proofs.StoreCases Proofs.HermiteMain Proofs.TotalMain Proofs.SkeletonMain Proofs.LfunMain Proofs.SequentialMain Proofs.SequentialRun Proofs.SequentialTotal.
Import ListNotations.

(** * Points of a grid *)
Lemma binom_le n i : (binom (n + i) i <= (n + 1) ^ i)%nat.
Proof.
  revert n. induction i as [|i IH]; intros n; [destruct (n + 0)%nat; cbn; lia|].
  induction n as [|n IHn].
  - cbn [Nat.add]. rewrite Nat.pow_1_l. clear. induction i as [|i IH]; [reflexivity|].
    change (binom (S i) (S i) + binom (S i) (S (S i)) <= 1)%nat. 
    assert (Z : forall a b, (a < b)%nat -> binom a b = 0%nat).
    { clear. induction a as [|a IH]; intros [|b] H; try lia; [reflexivity|]. cbn. rewrite !IH by lia. reflexivity. }
    rewrite (Z (S i) (S (S i))) by lia. lia.
  - replace (S n + S i)%nat with (S (S n + i)) by lia. cbn [binom]. 
    pose proof (IH (S n)) as H1. replace (S n + i)%nat with (n + S i)%nat in * by lia.
    replace (n + S i)%nat with (n + S i)%nat in H1 by lia.
    assert (H2 : ((n + 1) ^ S i <= (n + 1) * (S n + 1) ^ i)%nat).
    { cbn [Nat.pow]. apply Nat.mul_le_mono_l. apply Nat.pow_le_mono_l. lia. }
    replace ((S n + 1) ^ S i)%nat with ((n + 1) * (S n + 1) ^ i + (S n + 1) ^ i)%nat by (cbn [Nat.pow]; nia).
    lia.
Qed.
Lemma geometric a k : (list_sum (map (fun i => a ^ i) (seq 0 (k + 1))) <= (1 + a) ^ k)%nat.
Proof.
  induction k as [|k IH]; [cbn; lia|]. replace (S k + 1)%nat with (S (k + 1)) by lia. rewrite seq_S, map_app, list_sum_app.
  set (s := list_sum (map _ (seq 0 (k + 1)))) in *. change (s + (a ^ (k + 1) + 0) <= (1 + a) ^ S k)%nat.
  assert (H : (a ^ k <= (1 + a) ^ k)%nat) by (apply Nat.pow_le_mono_l; lia).
  replace (k + 1)%nat with (S k) by lia. rewrite !Nat.pow_succ_r'. set (x := (a ^ k)%nat) in *. set (y := ((1 + a) ^ k)%nat) in *.
  assert (a * x <= a * y)%nat by (apply Nat.mul_le_mono_l; exact H). lia.
Qed.
Lemma grid_le d k : (findNumGridPoints d k <= (d + 1) ^ (2 * k))%nat.
Proof.
  unfold findNumGridPoints. destruct (Nat.ltb_spec 0 d) as [H|H].
  - assert (E : forall l z, (fold_left (fun out i => out + choose (d - 1 + i) i * 2 ^ i) l z <= z + list_sum (map (fun i => (2 * d) ^ i) l))%nat).
    { induction l as [|i l IH]; intros z; cbn [fold_left map list_sum fold_right]; [lia|]. etransitivity; [apply IH|].
      rewrite choose_total. replace (i <=? d - 1 + i) with true by (symmetry; apply Nat.leb_le; lia).
      pose proof (binom_le (d - 1) i) as B. replace (d - 1 + 1)%nat with d in B by lia. rewrite Nat.pow_mul_l. fold (list_sum (map (fun i => (2 * d) ^ i) l)).
      assert (binom (d - 1 + i) i * 2 ^ i <= d ^ i * 2 ^ i)%nat by (apply Nat.mul_le_mono_r; exact B). 
      change (fold_right Init.Nat.add 0 (map (fun i0 => (2 * d) ^ i0) l))%nat with (list_sum (map (fun i0 => (2 * d) ^ i0) l))%nat. lia. }
    etransitivity; [apply E|]. etransitivity; [apply geometric|]. rewrite Nat.pow_mul_r. apply Nat.pow_le_mono_l. cbn. nia.
  - assert (d = 0)%nat by lia. subst. rewrite Nat.pow_1_l. lia.
Qed.
Lemma small_grid_le w nSL (items : list Z) : (length items < Z.to_nat w)%nat -> (w ^ Z.of_nat (2 * nSL) <= 500000)%Z -> small_grid 500000 nSL items.
Proof.
  intros Hl Hw pts Hn Hp. destruct (C13_main (length items) nSL) as (all & _ & Ha & Hlen).
  assert (L1 : (length pts <= length all)%nat).
  { apply NoDup_incl_length; auto. intros [l p] H. apply Ha, Hp, H. }
  pose proof (grid_le (length items) nSL) as L2. rewrite <- Hlen in L2.
  assert (L3 : ((length items + 1) ^ (2 * nSL) <= Z.to_nat w ^ (2 * nSL))%nat) by (apply Nat.pow_le_mono_l; lia).
  assert (L4 : (Z.of_nat (Z.to_nat w ^ (2 * nSL)) <= 500000)%Z).
  { rewrite Nat2Z.inj_pow, Z2Nat.id by lia. exact Hw. }
  lia.
Qed.

Local Open Scope R_scope.
Section Run.
Variables (q : R -> R) (inverse0 : rmat -> rmat) (solveM : rmat -> rmat -> rmat) (nSL : nat) (b : basis).
Hypothesis Hq : is_normal_quantile q.
Hypothesis HL : (1 <= nSL <= 25)%nat.
Hypothesis Inv0 : forall d A, inverts inverse0 d A.
Hypothesis Sol0 : solves_systems solveM.
Hypothesis Hb : basis_new q inverse0 solveM nSL = Ok b.
Variables (inverse : rmat -> rmat) (determinant : rmat -> R) (isnormal : R -> bool) (solve : rmat -> rvec -> rvec)
  (operatorSqrt operatorInverseSqrt : rmat -> rmat) (u : elsewhere) (r : rule).
Notation stored := (limited 500000 nSL (integrate_and_store inverse determinant solve operatorSqrt operatorInverseSqrt r b)).
Notation eval := (stored_eval b u). Notation deriv := (stored_deriv b u). Notation deriv2 := (stored_deriv2 b u).

Lemma C66_main fr m l s : regular fr -> no_empty fr -> (1 <= length (cs_cols (fr_Zt _ fr)))%nat -> (1 <= m)%nat ->
  (forall i, In i (fr_Lind _ fr) -> (1 <= i <= Z.of_nat m)%Z) ->
  find_lfun_SR inverse determinant isnormal sparse_belief stored_items eval deriv deriv2 stored fr m "binomial" (link_name l) nSL = Ok s ->
  forall (pars mean : list R) prec,
  let lfun := fun laplace => lfun_SR inverse determinant isnormal sparse_belief stored_items eval deriv deriv2 stored laplace s pars in
  length pars = (fr_numFixed _ fr + m)%nat -> length mean = cs_rows (fr_Zt _ fr) ->
  (exists v, forall laplace ll, laplace pars = (ll, mean, prec) ->
     (v <= ll / 2 -> lfun laplace = Ok v) /\ (ll / 2 < v -> lfun laplace = Throw RuntimeError)) \/
  ((exists x, isnormal x = false) /\
   forall laplace ll, laplace pars = (ll, mean, prec) -> lfun laplace = Throw RuntimeError).
Proof.
  destruct (basis_facts _ _ _ _ _ Hq HL Inv0 Sol0 Hb) as (D & kx & phi & TB & NB & _).
  intros Reg Ne Obs Hm HLind Hs pars mean prec lfun Hp Hmean. unfold lfun. clear lfun.
  destruct (lfun_general inverse determinant isnormal _ _ _ _ _ _ fr m l nSL s Reg Ne Obs Hm HLind Hs pars mean prec) as [_ G].
  apply G; auto. intros fs cg mean' prec' Sc _ Hr Hbd Hw.
  pose (S := sr_sig inverse determinant isnormal sparse_belief stored_items eval deriv deriv2 stored (GLMM.mkParams Rnum (firstn m pars) (skipn m pars) (mkFamily l Binomial))).
  assert (SL : scope_law S).
  { intros f d d2 o n items t E. cbn in E. apply bind_Ok in E. destruct E as (t0 & E & E'). injection E' as <-.
    unfold limited in E. destruct (excluded_middle_informative _); [|discriminate].
    destruct (store_ok inverse determinant solve operatorSqrt operatorInverseSqrt r b nSL D kx phi TB NB f d d2 o n items) as (t1 & E1 & Hi). rewrite E in E1. injection E1 as ->. exact Hi. }
  apply (C57_general S (sr_laws _ _ _ _ _ _ _ _ _ _) _ (mean_laws _ (mn_sizes_ok _ _ _ _ _ _ _ _ _)) SL (fun _ => True) (Z.to_nat (width cg))) with (fs := fs); auto.
  2: { intros c Hc. exact (width_cap cg c Hc). }
  intros M k items GM Hn Hk Hl.
  destruct (store_ok inverse determinant solve operatorSqrt operatorInverseSqrt r b nSL D kx phi TB NB (evaluate M) (evaluateDerivative M) (evaluateSecondDerivative M) k (n_normal (m_normal M)) items) as (t & E & Hi).
  exists (Stored t).
  split; [|split; [exact Hi|exact I]].
  change (bind (limited 500000 nSL (integrate_and_store inverse determinant solve operatorSqrt operatorInverseSqrt r b) (evaluate M) (evaluateDerivative M) (evaluateSecondDerivative M) k (n_normal (m_normal M)) items) (fun t => Ok (Stored t)) = Ok (Stored t)).
  unfold limited. destruct (excluded_middle_informative _) as [_|No]; [rewrite E; reflexivity|]. exfalso. apply No.
  apply (small_grid_le (width cg)); [|exact Hw]. pose proof (gm_cap _ _ _ _ _ GM) as Hc. rewrite Hl in Hc. exact Hc.
Qed.
End Run.
