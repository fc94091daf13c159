(** C57 for the whole of sequential reduction; and cases for C63 and C64. *)
From Coq Require Import String List Reals Lia Lra Arith ZArith Bool Permutation.
From Verif Require Import Model.Base Model.Family Model.GLMM Model.SplitFrame Model.Items Model.Vectors Model.Mixed Model.ClusterGraph Model.MultiNormal Model.NormalSig
  Model.Quadrature Model.IntegratedFunction Model.SparseGrid Model.SparseStore Model.BasisLevel Model.LfunSR Model.Sequential
  Spec.Numbers Spec.FamilySpec Spec.GLMMSpec Spec.SplitSpec Spec.ISSpec Spec.MatrixSpec Spec.HermiteSpec Spec.LaplaceSpec Spec.NodalSpec Spec.GridSpec Spec.SplineSpec Spec.BeliefSpec Spec.TreeSpec
  Spec.IntegralSpec Spec.MixedSpec Spec.DensitySpec Spec.TotalSpec Spec.LfunSpec Spec.JointSpec Spec.SequentialSpec
  Proofs.GLMMLemmas Proofs.VectorLemmas Proofs.SumLemmas Proofs.ListLemmas Proofs.ClusterMain Proofs.MessageLemmas Proofs.NormalMain
  Proofs.SparseMain Proofs.ConditionalMain Proofs.StoreMain Proofs.StoreCases Proofs.HermiteMain Proofs.TotalMain Proofs.SkeletonMain Proofs.LfunMain Proofs.SequentialMain Proofs.SequentialRun.
Import ListNotations.
Local Open Scope R_scope.

Section Total.
Context (inverse : rmat -> rmat) (determinant : rmat -> R) (isnormal : R -> bool) (solve : rmat -> rvec -> rvec)
  (operatorSqrt operatorInverseSqrt : rmat -> rmat) (r : rule) (b : basis) (u : elsewhere)
  (k : nat) (D : R -> Prop) (x : nat -> nat -> R) (phi : nat -> nat -> R -> R).
Hypothesis TB : total_basis b k D x phi.
Hypothesis NB : nodal k x phi.
Notation setup := (sequential_setup inverse determinant isnormal solve operatorSqrt operatorInverseSqrt r b u).
Notation lfun := (sequential_lfun inverse determinant isnormal solve operatorSqrt operatorInverseSqrt r b u).

Lemma store_ok f d d2 o n items :
  exists t, integrate_and_store inverse determinant solve operatorSqrt operatorInverseSqrt r b f d d2 o n items = Ok t /\ stored_items t = items.
Proof.
  unfold integrate_and_store, store_from_normal, transform_from_normal.
  match goal with |- context [grid_of ?F ?m b] => destruct (C16_main b k D x phi m F TB NB) as (g & Eg & _) end.
  rewrite Eg. cbn [bind]. eexists. split; reflexivity.
Qed.

Lemma C57_sequential_main fr m l nSL s : regular fr -> no_empty fr -> (1 <= length (cs_cols (fr_Zt _ fr)))%nat -> (1 <= m)%nat ->
  (forall i, In i (fr_Lind _ fr) -> (1 <= i <= Z.of_nat m)%Z) ->
  setup fr m "binomial" (link_name l) nSL = Ok s ->
  forall (pars mean : list R) prec,
  length pars = (fr_numFixed _ fr + m)%nat -> length mean = cs_rows (fr_Zt _ fr) ->
  (exists v, forall laplace ll, laplace pars = (ll, mean, prec) ->
     (v <= ll / 2 -> lfun laplace s pars = Ok v) /\ (ll / 2 < v -> lfun laplace s pars = Throw RuntimeError)) \/
  ((exists x, isnormal x = false) /\
   forall laplace ll, laplace pars = (ll, mean, prec) -> lfun laplace s pars = Throw RuntimeError).
Proof.
  intros Reg Ne Obs Hm HLind Hs pars mean prec Hp Hmean.
  destruct (lfun_general inverse determinant isnormal _ _ _ _ _ _ fr m l nSL s Reg Ne Obs Hm HLind Hs pars mean prec) as [_ G].
  apply G; auto. intros fs cg mean' prec' Sc _ Hr Hb _.
  apply (C57_general _ (sr_laws _ _ _ _ _ _ _ _ _ _) _ (mean_laws _ (mn_sizes_ok _ _ _ _ _ _ _ _ _))) with (good := fun _ => True) (cap := Z.to_nat (width cg)) (fs := fs); auto.
  3: { intros c Hc. exact (width_cap cg c Hc). }
  - intros f d d2 o n items t E. cbn in E. apply bind_Ok in E. destruct E as (t0 & E & E'). injection E' as <-.
    destruct (store_ok f d d2 o n items) as (t1 & E1 & Hi). rewrite E in E1. injection E1 as ->. exact Hi.
  - intros M o items G' _ _ _. cbn.
    match goal with |- context [integrate_and_store _ _ _ _ _ _ _ ?f ?d ?d2 ?o ?n ?items] => destruct (store_ok f d d2 o n items) as (t & E & Hi) end.
    exists (Stored t). rewrite E. auto.
Qed.
End Total.

(** With the basis of the code. *)
Section Real.
Variables (q : R -> R) (inverse0 : rmat -> rmat) (solveM : rmat -> rmat -> rmat) (L : nat) (b : basis).
Hypothesis Hq : is_normal_quantile q.
Hypothesis HL : (1 <= L <= 25)%nat.
Hypothesis Inv0 : forall d A, inverts inverse0 d A.
Hypothesis Sol0 : solves_systems solveM.
Hypothesis Hb : basis_new q inverse0 solveM L = Ok b.
Variables (inverse : rmat -> rmat) (determinant : rmat -> R) (isnormal : R -> bool) (solve : rmat -> rvec -> rvec)
  (operatorSqrt operatorInverseSqrt : rmat -> rmat) (u : elsewhere).

Lemma basis_facts : exists D x phi, total_basis b L D x phi /\ nodal L x phi /\ x 0%nat 0%nat = 0.
Proof.
  destruct (real_basis q inverse0 solveM L Hq HL Inv0 Sol0) as (b' & x & phi & p1 & p2 & E & TB & NB & _ & X0 & _).
  rewrite Hb in E. injection E as <-. eauto 10.
Qed.

Lemma C57_basis_main r fr m l nSL s : regular fr -> no_empty fr -> (1 <= length (cs_cols (fr_Zt _ fr)))%nat -> (1 <= m)%nat ->
  (forall i, In i (fr_Lind _ fr) -> (1 <= i <= Z.of_nat m)%Z) ->
  sequential_setup inverse determinant isnormal solve operatorSqrt operatorInverseSqrt r b u fr m "binomial" (link_name l) nSL = Ok s ->
  forall (pars mean : list R) prec,
  let lfun := fun laplace => sequential_lfun inverse determinant isnormal solve operatorSqrt operatorInverseSqrt r b u laplace s pars in
  length pars = (fr_numFixed _ fr + m)%nat -> length mean = cs_rows (fr_Zt _ fr) ->
  (exists v, forall laplace ll, laplace pars = (ll, mean, prec) ->
     (v <= ll / 2 -> lfun laplace = Ok v) /\ (ll / 2 < v -> lfun laplace = Throw RuntimeError)) \/
  ((exists x, isnormal x = false) /\
   forall laplace ll, laplace pars = (ll, mean, prec) -> lfun laplace = Throw RuntimeError).
Proof.
  destruct basis_facts as (D & x & phi & TB & NB & _). intros Reg Ne Obs Hm HLi Hs pars mean prec. cbv zeta.
  exact (C57_sequential_main _ _ _ _ _ _ _ _ _ L D x phi TB NB fr m l nSL s Reg Ne Obs Hm HLi Hs pars mean prec).
Qed.

Hypothesis Hinv : forall d A, inverts inverse d A.
Hypothesis Det : determinants 1 determinant.
Hypothesis Sq : forall d A, (0 < d)%nat -> square d A -> square d (operatorSqrt A) /\ square d (operatorInverseSqrt A).
Lemma C63_main es lam V : es (findHermiteJacobi 1) = (lam, V) -> eigendecomposition 1 (findHermiteJacobi 1) lam V ->
  let r := rule_initialize es 1 in
  forall fr m l P nSL s, regular fr -> no_empty fr -> (1 <= length (cs_cols (fr_Zt _ fr)))%nat -> (1 <= m)%nat ->
  (forall i, In i (fr_Lind _ fr) -> (1 <= i <= Z.of_nat m)%Z) -> inverse_link l P ->
  sequential_setup inverse determinant isnormal solve operatorSqrt operatorInverseSqrt r b u fr m "binomial" (link_name l) nSL = Ok s ->
  forall laplace pars v ll mean Q Sigma, laplace pars = (ll, mean, Q) ->
  let mu := fun e => nth (Z.to_nat e) mean 0 in
  joint_precision (map (sr_scope sparse_belief stored_items) (sr_beliefs _ s)) (effects fr) Q ->
  joint_variance (effects fr) Q Sigma -> proper_marginals determinant (effects fr) mu Sigma ->
  sequential_lfun inverse determinant isnormal solve operatorSqrt operatorInverseSqrt r b u laplace s pars = Ok v ->
  v = items_laplace (effects fr) (joint_density P fr (skipn m pars) (firstn m pars)) mu Q
      + INR (cs_rows (fr_Zt _ fr)) * (ln (sqrt (2 * PI)) - logSqrtTwoPi + ln (sqrtPi / sqrt PI)).
Proof.
  intros Hes Hed r fr m l P nSL s Reg Ne Obs Hm HLi HP Hs laplace pars v ll mean Q Sigma El mu J JV PM Hv.
  destruct basis_facts as (D & x & phi & TB & NB & X0).
  exact (C63_run inverse determinant isnormal solve operatorSqrt operatorInverseSqrt r b u L D x phi Hinv Det TB NB X0 Sq fr m l P nSL s Reg Ne Obs Hm HLi HP Hs
    laplace pars v ll mean Q Hv El es lam V Sigma eq_refl Hes Hed J JV PM).
Qed.

Lemma C64_main es n lam V : (0 < n)%nat -> es (findHermiteJacobi n) = (lam, V) -> eigendecomposition n (findHermiteJacobi n) lam V ->
  let r := rule_initialize es n in
  forall fr m l P nSL s, regular fr -> no_empty fr -> (1 <= length (cs_cols (fr_Zt _ fr)))%nat -> (1 <= m)%nat ->
  (forall i, In i (fr_Lind _ fr) -> (1 <= i <= Z.of_nat m)%Z) -> inverse_link l P ->
  sequential_setup inverse determinant isnormal solve operatorSqrt operatorInverseSqrt r b u fr m "binomial" (link_name l) nSL = Ok s ->
  (forall c, In c (map (sr_scope sparse_belief stored_items) (sr_beliefs _ s)) -> (length c <= 1)%nat) ->
  forall laplace pars v ll mean Q Sigma, laplace pars = (ll, mean, Q) ->
  let mu := fun e => nth (Z.to_nat e) mean 0 in
  let F := joint_density P fr (skipn m pars) (firstn m pars) in
  joint_precision (map (sr_scope sparse_belief stored_items) (sr_beliefs _ s)) (effects fr) Q ->
  joint_variance (effects fr) Q Sigma -> proper_marginals determinant (effects fr) mu Sigma ->
  sequential_lfun inverse determinant isnormal solve operatorSqrt operatorInverseSqrt r b u laplace s pars = Ok v ->
  (exists G c, forall w, F w = fold_right Rplus 0 (map (fun e => G e (w e)) (effects fr)) + c) /\
  forall G c, (forall w, F w = fold_right Rplus 0 (map (fun e => G e (w e)) (effects fr)) + c) ->
  v = fold_right Rplus 0 (map (fun e => adaptive_quadrature (qr_nodes r) (qr_weights r) (mu e) (sqrt (/ Q e e)) (G e)) (effects fr))
      + c + INR (cs_rows (fr_Zt _ fr)) * (ln (sqrt (2 * PI)) - logSqrtTwoPi).
Proof.
  intros Hn Hes Hed r fr m l P nSL s Reg Ne Obs Hm HLi HP Hs One laplace pars v ll mean Q Sigma El mu F J JV PM Hv.
  destruct basis_facts as (D & x & phi & TB & NB & X0).
  exact (C64_run inverse determinant isnormal solve operatorSqrt operatorInverseSqrt r b u L D x phi Hinv Det TB NB X0 Sq fr m l P nSL s Reg Ne Obs Hm HLi HP Hs
    laplace pars v ll mean Q Hv El es n lam V Sigma eq_refl Hn Hes Hed One J JV PM).
Qed.
End Real.
