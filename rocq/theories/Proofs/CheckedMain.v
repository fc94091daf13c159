(** C65: every call is defined and has arguments of the right sizes. *)
From Coq Require Import String List Reals Lia Lra Arith ZArith Bool Permutation ClassicalEpsilon.
From Verif Require Import Model.Base Model.Family Model.GLMM Model.SplitFrame Model.Items Model.Vectors Model.Mixed Model.ClusterGraph Model.MultiNormal Model.NormalSig
  Model.Quadrature Model.IntegratedFunction Model.SparseGrid Model.SparseStore Model.BasisLevel Model.LfunSR Model.Sequential
  Spec.Numbers Spec.FamilySpec Spec.GLMMSpec Spec.SplitSpec Spec.ISSpec Spec.MatrixSpec Spec.HermiteSpec Spec.LaplaceSpec Spec.NodalSpec Spec.GridSpec Spec.SplineSpec Spec.BeliefSpec Spec.TreeSpec
  Spec.IntegralSpec Spec.MixedSpec Spec.DensitySpec Spec.TotalSpec Spec.LfunSpec Spec.JointSpec Spec.SequentialSpec
  Proofs.GLMMLemmas Proofs.VectorLemmas Proofs.SumLemmas Proofs.ListLemmas Proofs.ClusterMain Proofs.MessageLemmas Proofs.NormalMain
  Proofs.SparseMain Proofs.ConditionalMain Proofs.StoreMain Proofs.StoreCases Proofs.HermiteMain Proofs.TotalMain Proofs.SkeletonMain Proofs.LfunMain Proofs.SequentialMain Proofs.SequentialRun Proofs.SequentialTotal.
Import ListNotations.
Local Open Scope R_scope.

(** * Sizes of matrices *)
Lemma square_rows d (A : rmat) : square d A <-> length A = d /\ forall row, In row A -> length row = d.
Proof.
  split; intros [L H]; split; auto.
  - intros row Hr. destruct (In_nth A row [] Hr) as (i & Hi & <-). apply H. lia.
  - intros i Hi. apply H. apply nth_In. lia.
Qed.
Lemma getMatrixWithout_square d k (A : rmat) : square (S d) A -> (k <= d)%nat -> square d (getMatrixWithout k A).
Proof.
  intros [L H] Hk. unfold getMatrixWithout, getVectorWithout. assert (Le : length (erase A k) = d) by now apply VectorLemmas.erase_length.
  split; [now rewrite map_length|]. intros i Hi. rewrite (nth_map_lt _ _ _ _ []) by lia. apply VectorLemmas.erase_length; auto.
  rewrite nth_erase. apply H. apply up_lt; auto.
Qed.
Lemma outer_square d a c : length a = d -> length c = d -> square d (outer a c).
Proof. intros La Lc. split; [unfold outer; now rewrite map_length|]. intros i Hi. rewrite nth_outer by lia. now rewrite vscale_length. Qed.
Lemma mzero_square d : square d (mzero d).
Proof. apply square_rows. unfold mzero. split; [apply repeat_length|]. intros row Hr. apply repeat_spec in Hr. subst. apply repeat_length. Qed.
Lemma midentity_square d : square d (midentity d).
Proof. apply square_rows. unfold midentity. split; [now rewrite map_length, seq_length|]. intros row Hr. apply in_map_iff in Hr. destruct Hr as (i & <- & _). now rewrite map_length, seq_length. Qed.
Lemma vmmul_length d v (A : rmat) : square d A -> length (vmmul v A) = d.
Proof.
  intros S. apply square_rows in S. destruct S as [L H]. unfold vmmul.
  assert (Hh : length (hd [] A) = d) by (destruct A as [|row A]; [cbn in *; lia|apply H; now left]).
  rewrite Hh. clear L Hh. revert v. induction A as [|row A IH]; intros [|x v]; cbn [combine fold_right fst snd]; try apply repeat_length.
  apply vadd_length; [rewrite vscale_length; apply H; now left|apply IH; intros; apply H; now right].
Qed.
Lemma mmul_square d (A C : rmat) : square d C -> length A = d -> square d (mmul A C).
Proof.
  intros S L. apply square_rows. unfold mmul. split; [now rewrite map_length|].
  intros row Hr. apply in_map_iff in Hr. destruct Hr as (x & <- & _). now apply vmmul_length.
Qed.
Lemma setMatrixSubset_square d subset (A C : rmat) : square d A -> square d (setMatrixSubset A C subset).
Proof.
  unfold setMatrixSubset. generalize subset at 2 as cols. revert A C. induction subset as [|k subset IH]; intros A [|c C] cols S; cbn [setMatrixRows]; auto.
  apply IH. destruct S as [L H]. split; [now rewrite upd_length|]. intros i Hi.
  destruct (Nat.eq_dec i k) as [->|Hne].
  - rewrite nth_upd_eq by lia. rewrite setMean_len. auto.
  - rewrite nth_upd_ne by auto. auto.
Qed.

(** * Normals *)
Definition nsized (d : nat) (n : mnormal) : Prop := length (no_mean n) = d /\ square d (no_precision n) /\ square d (no_variance n).

Section Sizes.
Context (inverse : rmat -> rmat) (determinant : rmat -> R) (isnormal : R -> bool) (solve : rmat -> rvec -> rvec)
  (operatorSqrt operatorInverseSqrt : rmat -> rmat) (r : rule) (b : basis) (u : elsewhere).
Hypothesis RS : right_sizes inverse solve operatorSqrt operatorInverseSqrt u.

Lemma inverse_or d (A C : rmat) : square d A -> square d C -> square d (if Nat.ltb 0 (length A) then inverse A else C).
Proof. intros SA SC. destruct (Nat.ltb_spec 0 (length A)) as [H|H]; auto. apply (rs_inverse _ _ _ _ _ RS); auto. destruct SA as [L _]. lia. Qed.
Lemma setPrecision_sized d n A : length (no_mean n) = d -> square d A -> nsized d (setPrecision inverse determinant n A).
Proof. intros L S. unfold setPrecision, nsized. cbn [no_mean no_precision no_variance]. auto using inverse_or. Qed.
Lemma setVariance_sized d n A : length (no_mean n) = d -> square d A -> nsized d (setVariance inverse determinant n A).
Proof. intros L S. unfold setVariance, nsized. cbn [no_mean no_precision no_variance]. auto using inverse_or. Qed.
Lemma multiply_sized d n normal subset div : nsized d n -> nsized (length subset) normal -> nsized d (multiplySubsetInternal inverse determinant n normal subset div).
Proof.
  intros (L & S & V) (L' & S' & V'). unfold multiplySubsetInternal, nsized. cbn [no_mean no_precision no_variance].
  split; [now rewrite setMean_len|].
  match goal with |- context [setMatrixSubset ?A ?C ?s] => assert (SP : square d (setMatrixSubset A C s)) by now apply setMatrixSubset_square end.
  split; [exact SP|]. apply inverse_or; auto.
Qed.
Lemma marginal_sized d n items : nsized d n -> nsized (length items) (computeMarginal inverse determinant n items).
Proof.
  intros _. unfold computeMarginal. apply setVariance_sized; [|apply msubset_square].
  destruct (Nat.ltb_spec 0 (length items)); cbn; [apply vsubset_length|apply repeat_length].
Qed.
Lemma integrate_sized d k n : nsized (S d) n -> (k <= d)%nat -> nsized d (integrate_item inverse determinant n k).
Proof.
  intros (L & _ & V) Hk. unfold integrate_item, getVectorWithout.
  assert (Le : length (erase (no_mean n) k) = d) by now apply VectorLemmas.erase_length. rewrite Le.
  apply setVariance_sized; [|now apply getMatrixWithout_square]. destruct (Nat.ltb 0 d); cbn; [exact Le|apply repeat_length].
Qed.
Lemma normal_size_laws B0 sc ev d1 d2 it : size_laws (normal_sig inverse determinant isnormal B0 sc ev d1 d2 it) nsized.
Proof.
  constructor; cbn [normal_sig mn_mean mn_given mn_mul mn_div mn_marginal MN D].
  - intros d n H. apply H.
  - intros d mean prec H1 H2 H3. unfold normal_given. apply setPrecision_sized; auto. apply square_rows. auto.
  - intros d a c subset. apply multiply_sized.
  - intros d a c subset. apply multiply_sized.
  - intros d a subset. apply marginal_sized.
Qed.

(** * Integrals *)
Section Call.
Context (f : rvec -> outcome R) (g : rvec -> outcome rvec) (h : rvec -> outcome rmat) (k d : nat) (n : mnormal).
Hypothesis Hk : (k <= d)%nat.
Hypothesis Hn : nsized (S d) n.
Hypothesis Hg : forall x, length x = S d -> exists v, g x = Ok v /\ length v = S d.
Hypothesis Hh : forall x, length x = S d -> exists v, h x = Ok v /\ square (S d) v.
Let i := make_ifun inverse determinant normal_isProper k (fun x => ok_or 0 (f x)) (fun x => ok_or [] (g x)) (fun x => ok_or [] (h x)) n.

Lemma g_len x : length x = S d -> length (ok_or [] (g x)) = S d.
Proof. intros L. destruct (Hg x L) as (v & -> & Hv). exact Hv. Qed.
Lemma h_square x : length x = S d -> square (S d) (ok_or [] (h x)).
Proof. intros L. destruct (Hh x L) as (v & -> & Hv). exact Hv. Qed.
Lemma initial_sized : nsized (S d) (initializeNormal inverse determinant normal_isProper n).
Proof.
  unfold initializeNormal. destruct (normal_isProper n); [exact Hn|]. destruct Hn as (L & _). apply setPrecision_sized; [exact L|]. rewrite L. apply midentity_square.
Qed.
Lemma over_i : if_over i = k.
Proof. unfold i, make_ifun. cbv zeta. match goal with |- context [if ?c then _ else _] => destruct c end; reflexivity. Qed.
Lemma deriv_i x : if_derivative i x = ok_or [] (g x).
Proof. unfold i, make_ifun. cbv zeta. match goal with |- context [if ?c then _ else _] => destruct c end; reflexivity. Qed.
Lemma second_i x : if_secondDerivative i x = ok_or [] (h x).
Proof. unfold i, make_ifun. cbv zeta. match goal with |- context [if ?c then _ else _] => destruct c end; reflexivity. Qed.
Lemma cross_len : length (if_cross i) = d.
Proof.
  unfold i, make_ifun. cbv zeta. destruct initial_sized as (_ & _ & V). set (N := initializeNormal _ _ _ n) in *.
  pose proof (hd_length _ _ V ltac:(lia)) as Lh. destruct V as [LV RV]. rewrite Lh, LV.
  destruct (Nat.ltb_spec 1 (S d * S d)) as [H|H]; cbn [if_cross].
  - rewrite mvmul_length. assert (0 < d)%nat by nia. apply (rs_inverse _ _ _ _ _ RS); auto. apply getMatrixWithout_square; [split|]; auto.
  - assert (d = 0)%nat by nia. now subst.
Qed.
Lemma fold_vadd {A} (F : A -> rvec) l m : (forall a, length (F a) = m) -> forall s, length s = m -> length (fold_left (fun ret a => vadd ret (F a)) l s) = m.
Proof. intros H. induction l as [|a l IH]; intros s Hs; cbn; auto. apply IH. now apply vadd_length. Qed.
Lemma fold_madd {A} (F : A -> rmat) l m : (forall a, square m (F a)) -> forall s, square m s -> square m (fold_left (fun ret a => madd ret (F a)) l s).
Proof. intros H. induction l as [|a l IH]; intros s Hs; cbn; auto. apply IH. now apply madd_square. Qed.
Lemma noLog_len x c : length x = d -> length (integrateDerivativeNoLog i x c r) = d.
Proof.
  intros L. unfold integrateDerivativeNoLog, integrate1DVector. rewrite vscale_length, L.
  apply (fold_vadd (fun nw : R * R => vscale (snd nw * exp (fst nw ^ 2)) _)); [|apply repeat_length].
  intros a. rewrite vscale_length. cbv zeta. apply vadd_length; [|now rewrite vscale_length, vneg_length, cross_len].
  unfold getVectorWithout. rewrite over_i. apply VectorLemmas.erase_length; auto. rewrite vscale_length, deriv_i. apply g_len.
  unfold extendArgument. now rewrite insert_length, L.
Qed.
Lemma noLog_square x c : length x = d -> square d (integrateSecondDerivativeNoLog i x c r).
Proof.
  intros L. unfold integrateSecondDerivativeNoLog, integrate1DMatrix. apply mscale_square. rewrite L.
  apply (fold_madd (fun nw : R * R => mscale (snd nw * exp (fst nw ^ 2)) _)); [|apply mzero_square].
  intros a. apply mscale_square. cbv zeta. rewrite over_i, deriv_i, second_i.
  match goal with |- context [extendArgument i x ?t] => set (X := extendArgument i x t) end.
  assert (LX : length X = S d) by (unfold X, extendArgument; now rewrite insert_length, L).
  pose proof (g_len X LX) as Lg. pose proof (h_square X LX) as Sh.
  match goal with |- context [mscale ?v (Vectors.madd ?H (outer ?a ?a))] => assert (S2 : square (S d) (mscale v (Vectors.madd H (outer a a)))) by (apply mscale_square, madd_square; auto using outer_square); set (M := mscale v (Vectors.madd H (outer a a))) in * end.
  assert (L12 : length (getVectorWithout k (nth k M [])) = d).
  { unfold getVectorWithout. apply VectorLemmas.erase_length; auto. apply S2. lia. }
  apply madd_square; [apply msub_square; [apply msub_square|]|apply mscale_square]; auto using outer_square, cross_len, getMatrixWithout_square.
Qed.
Lemma if_deriv_len x : length x = d -> length (if_evaluateDerivative i r x) = d.
Proof. intros L. unfold if_evaluateDerivative. rewrite vscale_length. now apply noLog_len. Qed.
Lemma if_second_square x : length x = d -> square d (if_evaluateSecondDerivative i r x).
Proof.
  intros L. unfold if_evaluateSecondDerivative. apply mscale_square, msub_square; [now apply mscale_square, noLog_square|]. apply outer_square; now apply noLog_len.
Qed.

(** * What is stored *)
Lemma stored_shape s : store_from_normal solve operatorSqrt operatorInverseSqrt
    (if_evaluate i r) (if_evaluateDerivative i r) (if_evaluateSecondDerivative i r) (integrate_item inverse determinant n k) b = Ok s ->
  forall x, length x = d ->
  length (ok_or (el_derivative u s x) (store_evaluateDerivative s x b)) = d /\
  square d (ok_or (el_secondDerivative u s x) (store_evaluateSecondDerivative s x b)).
Proof.
  intros E x Lx. destruct (integrate_sized d k n Hn Hk) as (Lm & SP & _). set (N := integrate_item inverse determinant n k) in *. clearbody N.
  unfold store_from_normal in E. apply bind_Ok in E. destruct E as (t & E & Es). injection Es as <-.
  unfold transform_from_normal in E. apply bind_Ok in E. destruct E as (gr & _ & Et). injection Et as <-.
  set (md := find_modifier _ _ _ _).
  assert (SA : square d (qu_A md)).
  { unfold md, find_modifier, quadratic_initialize. rewrite Lm. destruct (Nat.ltb_spec 0 d) as [H|H].
    - match goal with |- context [if Rlt_dec ?a ?c then _ else _] => destruct (Rlt_dec a c) end; cbn [qu_A]; apply mscale_square, msub_square; auto using if_second_square;
        (unfold normal_evaluateSecondDerivative; destruct SP as [A1 A2]; split; [now rewrite map_length|]; intros j Hj; rewrite (nth_map_lt _ _ _ _ []) by lia; rewrite vneg_length; auto).
    - assert (d = 0)%nat by lia. subst d. cbn [qu_A quadratic_new]. apply mzero_square. }
  assert (Sy : square d (Vectors.madd (qu_A md) (mtranspose (qu_A md)))).
  { destruct (Nat.eq_dec d 0) as [->|H]; [|apply madd_square; auto; apply mtranspose_square; auto; lia].
    destruct SA as [LA _]. destruct (qu_A md); [|discriminate]. split; [reflexivity|]. intros; lia. }
  rewrite Lm. set (iS := if Nat.ltb 0 d then operatorSqrt (no_precision N) else mzero d).
  assert (SS : square d iS).
  { unfold iS. destruct (Nat.ltb_spec 0 d) as [H|H]; [apply (rs_sqrt _ _ _ _ _ RS); auto|apply mzero_square]. }
  assert (LT : length (mtranspose iS) = d).
  { destruct (Nat.eq_dec d 0) as [->|H]; [destruct SS as [LA _]; destruct iS; [reflexivity|discriminate]|apply mtranspose_square; auto; lia]. }
  split.
  - unfold store_evaluateDerivative, transform_interpolateDerivative. cbn [ss_stored ss_modifier st_inverseScale st_grid].
    match goal with |- context [interpolateDerivative ?a ?c b] => destruct (interpolateDerivative a c b) as [v|e| |] end; cbn [bind ok_or];
      try (rewrite (rs_derivative _ _ _ _ _ RS); exact Lx).
    apply vsub_length; [now rewrite mvmul_length|]. unfold quadratic_derivative. now apply vmmul_length.
  - unfold store_evaluateSecondDerivative, transform_interpolateSecondDerivative. cbn [ss_stored ss_modifier st_inverseScale st_grid].
    match goal with |- context [interpolateSecondDerivative ?a ?c b] => destruct (interpolateSecondDerivative a c b) as [v|e| |] end; cbn [bind ok_or];
      try (rewrite <- Lx; apply (rs_second _ _ _ _ _ RS)).
    apply msub_square; [|exact Sy]. apply mmul_square; auto. unfold mmul. now rewrite map_length.
Qed.
End Call.
End Sizes.

(** * The whole run *)
Section Run.
Variables (q : R -> R) (inverse0 : rmat -> rmat) (solveM : rmat -> rmat -> rmat) (L : nat) (b : basis).
Hypothesis Hq : is_normal_quantile q.
Hypothesis HL : (1 <= L <= 25)%nat.
Hypothesis Inv0 : forall d A, inverts inverse0 d A.
Hypothesis Sol0 : solves_systems solveM.
Hypothesis Hb : basis_new q inverse0 solveM L = Ok b.
Variables (inverse : rmat -> rmat) (determinant : rmat -> R) (isnormal : R -> bool) (solve : rmat -> rvec -> rvec)
  (operatorSqrt operatorInverseSqrt : rmat -> rmat) (u : elsewhere) (r : rule).
Hypothesis RS : right_sizes inverse solve operatorSqrt operatorInverseSqrt u.
Notation stored := (checked (integrate_and_store inverse determinant solve operatorSqrt operatorInverseSqrt r b)).
Notation eval := (stored_eval b u). Notation deriv := (stored_deriv b u). Notation deriv2 := (stored_deriv2 b u).

Lemma C65_main fr m l nSL s : regular fr -> no_empty fr -> (1 <= length (cs_cols (fr_Zt _ fr)))%nat -> (1 <= m)%nat ->
  (forall i, In i (fr_Lind _ fr) -> (1 <= i <= Z.of_nat m)%Z) ->
  find_lfun_SR inverse determinant isnormal sparse_belief stored_items eval deriv deriv2 stored fr m "binomial" (link_name l) nSL = Ok s ->
  forall (pars mean : list R) prec,
  let lfun := fun laplace => lfun_SR inverse determinant isnormal sparse_belief stored_items eval deriv deriv2 stored laplace s pars in
  length pars = (fr_numFixed _ fr + m)%nat -> length mean = cs_rows (fr_Zt _ fr) ->
  (exists v, forall laplace ll, laplace pars = (ll, mean, prec) ->
     (v <= ll / 2 -> lfun laplace = Ok v) /\ (ll / 2 < v -> lfun laplace = Throw RuntimeError)) \/
  ((exists x, isnormal x = false) /\
   forall laplace ll, laplace pars = (ll, mean, prec) -> lfun laplace = Throw RuntimeError).
Proof.
  destruct (basis_facts _ _ _ _ _ Hq HL Inv0 Sol0 Hb) as (D & kx & phi & TB & NB & _).
  intros Reg Ne Obs Hm HLind Hs pars mean prec lfun Hp Hmean. unfold lfun. clear lfun.
  destruct (lfun_general inverse determinant isnormal _ _ _ _ _ _ fr m l nSL s Reg Ne Obs Hm HLind Hs pars mean prec) as [_ G].
  apply G; auto. intros fs cg mean' prec' Sc Sh Hr Hbd _.
  pose (S := sr_sig inverse determinant isnormal sparse_belief stored_items eval deriv deriv2 stored (GLMM.mkParams Rnum (firstn m pars) (skipn m pars) (mkFamily l Binomial))).
  assert (SL : scope_law S).
  { intros f d d2 o n items t E. cbn in E. apply bind_Ok in E. destruct E as (t0 & E & E'). injection E' as <-.
    unfold checked in E. destruct (excluded_middle_informative _); [|discriminate].
    destruct (store_ok inverse determinant solve operatorSqrt operatorInverseSqrt r b L D kx phi TB NB f d d2 o n items) as (t1 & E1 & Hi). rewrite E in E1. injection E1 as ->. exact Hi. }
  apply (C57_general S (sr_laws _ _ _ _ _ _ _ _ _ _) nsized (normal_size_laws _ _ _ _ _ _ _ RS _ _ _ _ _ _) SL (shaped S) (Z.to_nat (width cg))) with (fs := fs); auto.
  2: { intros c Hc. exact (width_cap cg c Hc). }
  intros M k items GM Hn Hk Hl. 
  pose (f0 := evaluate M : rvec -> outcome R). pose (g0 := evaluateDerivative M : rvec -> outcome rvec).
  pose (h0 := evaluateSecondDerivative M : rvec -> outcome rmat). pose (n0 := n_normal (m_normal M) : mnormal).
  assert (GC : good_call f0 g0 h0 k n0 items).
  { pose proof (gm_sized _ _ _ _ _ GM) as (A1 & A2 & A3). unfold good_call. cbv zeta. rewrite Hl in A1, A2, A3. split; [lia|]. split; [exact A1|]. split; [exact A2|]. split; [exact A3|].
    intros x Hx. assert (Hx' : length x = length (m_items M)) by (rewrite Hl; exact Hx).
    destruct (gm_derivs S (sr_laws _ _ _ _ _ _ _ _ _ _) nsized M x _ GM Hx') as [(g & Eg & Lg) (h & Eh & Lh & Rh)].
    split; [exact (gm_eval S nsized (shaped S) _ M x GM Hx')|]. split; [exists g|exists h]; split; auto.
    - rewrite <- Hx. exact Lg.
    - apply square_rows. rewrite <- Hx. split; [exact Lh|exact Rh]. }
  destruct (store_ok inverse determinant solve operatorSqrt operatorInverseSqrt r b L D kx phi TB NB f0 g0 h0 k n0 items) as ((its & t) & E & Hi).
  exists (Stored (its, t)).
  split; [change (bind (checked (integrate_and_store inverse determinant solve operatorSqrt operatorInverseSqrt r b) f0 g0 h0 k n0 items) (fun t => Ok (Stored t)) = Ok (Stored (its, t)));
    unfold checked; destruct (excluded_middle_informative _) as [_|Hno]; [rewrite E; reflexivity|tauto]|].
  split; [exact Hi|]. cbn in Hi. subst its. destruct GC as (K1 & K2 & K3 & K4 & K5).
  unfold integrate_and_store in E. apply bind_Ok in E. destruct E as (t' & E & E'). injection E' as <-.
  intros w. cbn [bscope S sr_sig sr_scope stored_items fst].
  destruct (stored_shape inverse determinant solve operatorSqrt operatorInverseSqrt r b u RS f0 g0 h0 k (length items) n0 Hk (conj K2 (conj K3 K4))
    (fun x Hx => proj1 (proj2 (K5 x Hx))) (fun x Hx => proj2 (proj2 (K5 x Hx))) t' E (map w items)) as [H1 H2].
  - apply map_length.
  - apply square_rows in H2. split; [exact H1|exact H2].
Qed.
End Run.
