(** C68: sequential reduction at level 0. *)
From Coq Require Import String List Reals Lia Lra Arith ZArith Bool.
From Verif Require Import Model.Base Model.Family Model.GLMM Model.SplitFrame Model.Items Model.Vectors Model.Mixed Model.ClusterGraph Model.MultiNormal Model.NormalSig
  Model.Quadrature Model.IntegratedFunction Model.SparseGrid Model.SparseStore Model.BasisLevel Model.AnyConversion Model.LfunSR Model.Sequential
  Spec.Numbers Spec.FamilySpec Spec.GLMMSpec Spec.SplitSpec Spec.ISSpec Spec.MatrixSpec Spec.HermiteSpec Spec.LaplaceSpec Spec.NodalSpec Spec.GridSpec Spec.SplineSpec Spec.BeliefSpec Spec.TreeSpec
  Spec.DensitySpec Spec.TotalSpec Spec.LfunSpec Spec.JointSpec Spec.SequentialSpec
  Proofs.QuantileMain Proofs.BasisMain Proofs.StoreCases Proofs.DensityJoint Proofs.LfunCases Proofs.JointCases Proofs.QuadratureCases Proofs.SequentialRun Proofs.SequentialTotal Proofs.SequentialCases Proofs.AnyMain.
Import ListNotations.
Local Open Scope R_scope.

Section Zero.
Variables (any_int : site -> nat -> Z) (any_unsigned : R -> nat) (q : R -> R) (inverse0 : rmat -> rmat) (solveM : rmat -> rmat -> rmat) (b : basis).
Hypothesis Hb : any_basis_new any_int any_unsigned q inverse0 solveM 0 = Ok b.
Variables (inverse : rmat -> rmat) (determinant : rmat -> R) (isnormal : R -> bool) (solve : rmat -> rvec -> rvec)
  (operatorSqrt operatorInverseSqrt : rmat -> rmat) (u : elsewhere).

Lemma C68_total_main r fr m l s : regular fr -> no_empty fr -> (1 <= length (cs_cols (fr_Zt _ fr)))%nat -> (1 <= m)%nat ->
  (forall i, In i (fr_Lind _ fr) -> (1 <= i <= Z.of_nat m)%Z) ->
  sequential_setup inverse determinant isnormal solve operatorSqrt operatorInverseSqrt r b u fr m "binomial" (link_name l) 0 = Ok s ->
  forall (pars mean : list R) prec,
  let lfun := fun laplace => sequential_lfun inverse determinant isnormal solve operatorSqrt operatorInverseSqrt r b u laplace s pars in
  length pars = (fr_numFixed _ fr + m)%nat -> length mean = cs_rows (fr_Zt _ fr) ->
  (exists v, forall laplace ll, laplace pars = (ll, mean, prec) ->
     (v <= ll / 2 -> lfun laplace = Ok v) /\ (ll / 2 < v -> lfun laplace = Throw RuntimeError)) \/
  ((exists x, isnormal x = false) /\
   forall laplace ll, laplace pars = (ll, mean, prec) -> lfun laplace = Throw RuntimeError).
Proof.
  destruct (any_basis_0_total _ _ _ _ _ _ Hb) as [TB NB]. intros Reg Ne Obs Hm HLi Hs pars mean prec. cbv zeta.
  exact (C57_sequential_main _ _ _ _ _ _ _ _ _ 0 _ _ _ TB NB fr m l 0 s Reg Ne Obs Hm HLi Hs pars mean prec).
Qed.

Hypothesis Hinv : forall d A, inverts inverse d A.
Hypothesis Det : determinants 1 determinant.
Hypothesis Sq : forall d A, (0 < d)%nat -> square d A -> square d (operatorSqrt A) /\ square d (operatorInverseSqrt A).
Lemma C68_laplace_main es lam V : es (findHermiteJacobi 1) = (lam, V) -> eigendecomposition 1 (findHermiteJacobi 1) lam V ->
  let r := rule_initialize es (2 ^ (0 + 1) - 1) in
  forall fr m l P s, regular fr -> no_empty fr -> (1 <= length (cs_cols (fr_Zt _ fr)))%nat -> (1 <= m)%nat ->
  (forall i, In i (fr_Lind _ fr) -> (1 <= i <= Z.of_nat m)%Z) -> inverse_link l P ->
  sequential_setup inverse determinant isnormal solve operatorSqrt operatorInverseSqrt r b u fr m "binomial" (link_name l) 0 = Ok s ->
  forall laplace pars v ll mean Q Sigma, laplace pars = (ll, mean, Q) ->
  let mu := fun e => nth (Z.to_nat e) mean 0 in
  joint_precision (map (sr_scope sparse_belief stored_items) (sr_beliefs _ s)) (effects fr) Q ->
  joint_variance (effects fr) Q Sigma -> proper_marginals determinant (effects fr) mu Sigma ->
  sequential_lfun inverse determinant isnormal solve operatorSqrt operatorInverseSqrt r b u laplace s pars = Ok v ->
  v = items_laplace (effects fr) (joint_density P fr (skipn m pars) (firstn m pars)) mu Q
      + INR (cs_rows (fr_Zt _ fr)) * (ln (sqrt (2 * PI)) - logSqrtTwoPi + ln (sqrtPi / sqrt PI)).
Proof.
  intros Hes Hed r fr m l P s Reg Ne Obs Hm HLi HP Hs laplace pars v ll mean Q Sigma El mu J JV PM Hv.
  destruct (any_basis_0_total _ _ _ _ _ _ Hb) as [TB NB].
  exact (C63_run inverse determinant isnormal solve operatorSqrt operatorInverseSqrt r b u 0 _ _ _ Hinv Det TB NB eq_refl Sq fr m l P 0 s Reg Ne Obs Hm HLi HP Hs
    laplace pars v ll mean Q Hv El es lam V Sigma eq_refl Hes Hed J JV PM).
Qed.
End Zero.

(** The smallest int for each conversion to int, as cvttsd2si gives. *)
Definition smallest_int (_ : site) (_ : nat) : Z := (- 2 ^ 31)%Z.
Lemma zero_setup r b : match small_setup r b contest 1 "binomial" "logit" 0 with Ok s => Some (scopes_of s) | _ => None end = Some [[0; 1]; [0]; [1]]%Z.
Proof. lazy. reflexivity. Qed.
Lemma zero_case : exists b s v, any_basis_new smallest_int (fun _ => 0%nat) quantile some_inverse some_solve 0 = Ok b /\
  let r := rule_initialize one_rule (2 ^ (0 + 1) - 1) in
  small_setup r b contest 1 "binomial" "logit" 0 = Ok s /\ small_lfun r b (small_approx contest_Q (2 * v)) s [1; 0] = Ok v /\
  joint_precision (scopes_of s) (effects contest) contest_Q /\ joint_variance (effects contest) contest_Q contest_Sigma /\
  proper_marginals det_small (effects contest) zero_mean contest_Sigma.
Proof.
  destruct (C68_constant_main smallest_int (fun _ => 0%nat) quantile some_inverse some_solve) as (b & E & _).
  set (r := rule_initialize one_rule (2 ^ (0 + 1) - 1)).
  pose proof (zero_setup r b) as Hs. destruct (small_setup r b contest 1 "binomial" "logit" 0) as [s|e| |] eqn:Es; try discriminate. injection Hs as Hs.
  destruct contest_regular as [Reg Ne].
  destruct (C68_total_main smallest_int (fun _ => 0%nat) quantile some_inverse some_solve b E inv_all det_small (fun _ => true) (fun _ v => v) (fun A => A) (fun A => A) nowhere
    r contest 1 Logit s Reg Ne ltac:(cbn; lia) ltac:(lia) ltac:(intros i [<-|[<-|[]]]; lia) Es [1; 0] [0; 0] contest_Q eq_refl eq_refl) as [(v & Hv)|((y & Hy) & _)]; [|discriminate].
  exists b, s, v. cbv zeta. fold r. rewrite Hs. split; [exact E|]. split; [exact Es|]. split; [exact (proj1 (Hv (small_approx contest_Q (2 * v)) (2 * v) eq_refl) ltac:(lra))|].
  split; [apply contest_joint|]. split; [apply contest_joint|]. apply (small_proper _ (2 / 3) (1 / 3)); [reflexivity|lra|lra].
Qed.
