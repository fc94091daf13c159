(** C31: the quadratic modifier and the sparse grid store. *)
From Coq Require Import List Reals Lia Lra Arith.
From Verif Require Import Model.Base Model.SparseGrid Model.Vectors Model.MultiNormal Model.SparseStore
  Spec.GLMMSpec Spec.MatrixSpec Spec.Calculus Spec.StoreSpec Spec.NodalSpec Spec.GridSpec
  Proofs.ListLemmas Proofs.GLMMLemmas Proofs.VectorLemmas Proofs.SumLemmas Proofs.CalculusLemmas Proofs.NormalMain Proofs.SparseMain Proofs.GridSpan.
Import ListNotations.
Local Open Scope R_scope.

Lemma hd_length d (m : rmat) : square d m -> (0 < d)%nat -> length (hd [] m) = d.
Proof. intros [L H] Hd. destruct m as [|row m]; [cbn in L; lia|]. apply (H 0%nat). lia. Qed.
Lemma mtranspose_square d m : square d m -> (0 < d)%nat -> square d (mtranspose m).
Proof.
  intros S Hd. unfold mtranspose. rewrite (hd_length d) by auto. split; [now rewrite map_length, seq_length|].
  intros i Hi. rewrite (nth_map_lt _ _ _ _ 0%nat) by (rewrite seq_length; auto). rewrite map_length. apply S.
Qed.
Lemma entry_mtranspose d m i j : square d m -> (i < d)%nat -> (j < d)%nat -> entry (mtranspose m) i j = entry m j i.
Proof.
  intros S Hi Hj. unfold entry, mtranspose. rewrite (hd_length d) by (auto; lia).
  rewrite (nth_map_lt _ _ _ _ 0%nat) by (rewrite seq_length; auto). rewrite seq_nth by auto. cbn [Nat.add].
  rewrite (nth_map_lt _ _ _ _ []); [reflexivity|]. destruct S as [-> _]. exact Hj.
Qed.
Lemma mat_ext d (A B : rmat) : square d A -> square d B -> (forall i j, (i < d)%nat -> (j < d)%nat -> entry A i j = entry B i j) -> A = B.
Proof.
  intros [A1 A2] [B1 B2] E. apply (nth_ext A B [] []); [lia|]. intros i Hi. rewrite A1 in Hi.
  apply (vec_ext _ _ d); auto. intros j Hj. now apply E.
Qed.
Lemma msub_square d A B : square d A -> square d B -> square d (msub A B).
Proof.
  intros [LA RA] [LB RB]. split; [apply map2_length; auto|]. intros i Hi.
  rewrite (nth_msub i _ _ d) by auto. apply vsub_length; auto.
Qed.
Lemma entry_msub d A B i j : square d A -> square d B -> (i < d)%nat -> (j < d)%nat ->
  entry (msub A B) i j = entry A i j - entry B i j.
Proof.
  intros [LA RA] [LB RB] Hi Hj. unfold entry. rewrite (nth_msub i _ _ d) by auto.
  rewrite (nth_vsub j _ _ d) by auto. reflexivity.
Qed.
Lemma smooth_ext d f f' g g' H H' : (forall x, length x = d -> f x = f' x) -> (forall x, length x = d -> g x = g' x) ->
  (forall x, length x = d -> H x = H' x) -> smooth d f g H -> smooth d f' g' H'.
Proof.
  intros Ef Eg EH [S1 S2 S3 S4]. constructor.
  - intros x Lx. eapply grad_ext; [exact Lx|exact Ef|now apply Eg|now apply S1].
  - intros x Lx. rewrite <- EH; auto.
  - intros x i Lx Hi. eapply grad_ext; [exact Lx| | |now apply (S3 x i)].
    + intros y Ly. cbn beta. now rewrite Eg.
    + now rewrite EH.
  - intros x i j Lx Hi Hj. rewrite <- EH by auto. now apply S4.
Qed.
Lemma smooth_plus d f f' g g' H H' : smooth d f g H -> smooth d f' g' H' ->
  smooth d (fun x => f x + f' x) (fun x => vadd (g x) (g' x)) (fun x => madd (H x) (H' x)).
Proof.
  intros [S1 S2 S3 S4] [T1 T2 T3 T4].
  assert (Lr : forall x i, length x = d -> (i < d)%nat -> nth i (madd (H x) (H' x)) [] = vadd (nth i (H x) []) (nth i (H' x) [])).
  { intros x i Lx Hi. apply (nth_madd i _ _ d); auto. }
  constructor.
  - intros x Lx. apply grad_plus; auto.
  - intros x Lx. apply map2_length; auto.
  - intros x i Lx Hi. rewrite Lr by auto.
    eapply grad_ext; [exact Lx| |reflexivity|apply grad_plus; [now apply (S3 x i)|now apply (T3 x i)]].
    intros y Ly. symmetry. apply (nth_vadd i _ _ d); auto; [apply (S1 y Ly)|apply (T1 y Ly)].
  - intros x i j Lx Hi Hj. rewrite !Lr by auto.
    assert (A1 := proj1 (S3 x i Lx Hi)). assert (A2 := proj1 (S3 x j Lx Hj)).
    assert (B1 := proj1 (T3 x i Lx Hi)). assert (B2 := proj1 (T3 x j Lx Hj)).
    rewrite (nth_vadd j _ _ d), (nth_vadd i _ _ d) by auto. f_equal; auto.
Qed.

Section Quadratic.
Variables (q : quadratic) (d : nat).
Hypothesis Hd : (0 < d)%nat.
Hypothesis Lb : length (qu_b q) = d.
Hypothesis SA : square d (qu_A q).
Notation A := (qu_A q).
(** A quadratic is a normal density but for its sign. *)
Definition as_normal : mnormal := mkNormal (qu_b q) (mscale (-1) (madd A (mtranspose A))) [] 0.
Lemma sym_part : square d (madd A (mtranspose A)).
Proof. apply madd_square; auto. now apply mtranspose_square. Qed.
Lemma sym_entry i j : (i < d)%nat -> (j < d)%nat -> entry (madd A (mtranspose A)) i j = entry A i j + entry A j i.
Proof. intros. rewrite (entry_madd d), (entry_mtranspose d); auto. now apply mtranspose_square. Qed.
Lemma as_normal_square : square d (no_precision as_normal).
Proof. apply mscale_square, sym_part. Qed.
Lemma as_normal_sym : symmetric d (no_precision as_normal).
Proof. intros i j Hi Hj. cbn [as_normal no_precision]. rewrite !entry_mscale, !sym_entry by auto. ring. Qed.
Lemma quadratic_bil x : length x = d -> quadratic_value q x = quad d A (qu_b q) x.
Proof.
  intros Lx. unfold quadratic_value. assert (Ld : length (vsub x (qu_b q)) = d) by (apply vsub_length; auto).
  rewrite (vdot_sum _ _ d); auto; [|rewrite mvmul_length; apply SA].
  rewrite quad_bil, bil_row. apply sumR_ext. intros i Hi. rewrite (nth_vsub i _ _ d) by auto. f_equal.
  rewrite (nth_mvmul d) by auto. apply sumR_ext. intros j Hj. rewrite (nth_vsub j _ _ d) by auto. reflexivity.
Qed.
Lemma value_normal x : length x = d -> normal_evaluate as_normal x = quadratic_value q x.
Proof.
  intros Lx. rewrite (evaluate_quad as_normal d as_normal_square Lb x Lx), quadratic_bil by auto. cbn [as_normal no_normalizer no_mean].
  rewrite !quad_bil. set (v := fun i => nth i x 0 - nth i (qu_b q) 0).
  rewrite (bil_ext d (entry (no_precision as_normal)) (fun i j => -1 * (entry A i j + entry A j i)) v v v v); auto.
  2:{ intros i j Hi Hj. cbn [as_normal no_precision]. now rewrite entry_mscale, sym_entry. }
  rewrite bil_scal_A, bil_plus_A.
  replace (bil d (fun i j => entry A j i) v v) with (bil d (entry A) v v); [lra|].
  unfold bil. rewrite sumR_swap. apply sumR_ext. intros i Hi. apply sumR_ext. intros j Hj. ring.
Qed.
Lemma derivative_entries x : length x = d -> length (quadratic_derivative q x) = d /\
  forall j, (j < d)%nat -> nth j (quadratic_derivative q x) 0 =
    sumR d (fun i => (nth i x 0 - nth i (qu_b q) 0) * (entry A i j + entry A j i)).
Proof.
  intros Lx. unfold quadratic_derivative. assert (Ld : length (vsub x (qu_b q)) = d) by (apply vsub_length; auto).
  destruct (vmmul_spec d d (madd A (mtranspose A)) (vsub x (qu_b q)) (proj1 sym_part) Ld Hd (proj2 sym_part)) as [E1 E2].
  split; auto. intros j Hj. rewrite E2 by auto. apply sumR_ext. intros i Hi. now rewrite (nth_vsub i _ _ d), sym_entry by auto.
Qed.
Lemma derivative_normal x : length x = d -> normal_evaluateDerivative as_normal x = quadratic_derivative q x.
Proof.
  intros Lx. destruct (derivative_spec as_normal d as_normal_square Lb x Hd Lx) as [L1 E1].
  destruct (derivative_entries x Lx) as [L2 E2]. apply (vec_ext _ _ d); auto. intros j Hj. rewrite E1, E2 by auto.
  rewrite <- sumR_opp. apply sumR_ext. intros i Hi. cbn [as_normal no_precision no_mean]. rewrite entry_mscale, sym_entry by auto. ring.
Qed.
Lemma second_normal x : normal_evaluateSecondDerivative as_normal x = quadratic_secondDerivative q x.
Proof.
  unfold normal_evaluateSecondDerivative, quadratic_secondDerivative. cbn [as_normal no_precision].
  apply (mat_ext d).
  - destruct (mscale_square d (-1) _ sym_part) as [L1 L2]. split; [now rewrite map_length|].
    intros i Hi. rewrite (nth_map_lt _ _ _ _ []) by lia. rewrite vneg_length. auto.
  - apply sym_part.
  - intros i j Hi Hj. unfold entry at 1. rewrite (nth_map_lt _ _ _ _ []) by (rewrite mscale_length, (proj1 sym_part); auto).
    rewrite nth_vneg. fold (entry (mscale (-1) (madd A (mtranspose A))) i j). rewrite entry_mscale. ring.
Qed.
Lemma quadratic_smooth : smooth d (quadratic_value q) (quadratic_derivative q) (quadratic_secondDerivative q).
Proof.
  pose proof (C47_main as_normal d as_normal_square Lb as_normal_sym Hd) as S. revert S. apply smooth_ext.
  - intros; now apply value_normal.
  - intros; now apply derivative_normal.
  - intros; apply second_normal.
Qed.
End Quadratic.

Lemma mnorm_zero d A : square d A -> ~ 0 < mnorm A -> forall i j, (i < d)%nat -> (j < d)%nat -> entry A i j = 0.
Proof.
  intros [L R] H i j Hi Hj. unfold mnorm in H.
  assert (Sq : forall v, 0 <= vdot v v).
  { intros v. unfold vdot, map2. induction v as [|a v IH]; cbn; [lra|]. pose proof (Rle_0_sqr a) as Q. unfold Rsqr in Q. lra. }
  assert (S0 : fold_right Rplus 0 (map (fun row => vdot row row) A) <= 0).
  { destruct (Rle_dec (fold_right Rplus 0 (map (fun row => vdot row row) A)) 0); auto. exfalso. apply H. apply sqrt_lt_R0. lra. }
  assert (Row : forall r, In r A -> vdot r r = 0).
  { clear - S0 Sq. induction A as [|a A IH]; intros r [].
    - subst. cbn in S0. pose proof (Sq r). assert (0 <= fold_right Rplus 0 (map (fun row => vdot row row) A)).
      { clear - Sq. induction A; cbn; [lra|]. pose proof (Sq a). lra. } lra.
    - apply IH; auto. cbn in S0. pose proof (Sq a). lra. }
  assert (El : forall v : rvec, vdot v v = 0 -> forall k, nth k v 0 = 0).
  { clear - Sq. induction v as [|a v IH]; intros E k; [destruct k; reflexivity|].
    unfold vdot, map2 in E. cbn in E. pose proof (Rle_0_sqr a) as Q. unfold Rsqr in Q.
    pose proof (Sq v) as Qv. unfold vdot, map2 in Qv.
    destruct k; cbn; [nra|]. apply IH. unfold vdot, map2. lra. }
  unfold entry. apply El, Row. apply nth_In. lia.
Qed.

Section Modifier.
Variables (solve : rmat -> rvec -> rvec) (normal : mnormal) (d : nat).
Hypothesis Hd : (0 < d)%nat.
Hypothesis Lm : length (no_mean normal) = d.
Hypothesis SP : square d (no_precision normal).
Hypothesis YP : symmetric d (no_precision normal).
Variables (f1 : rvec -> rvec) (f2 : rvec -> rmat).
Notation m := (no_mean normal).
Hypothesis L1 : length (f1 m) = d.
Hypothesis S2 : square d (f2 m).
Hypothesis Y2 : symmetric d (f2 m).
(** Half the difference of the Hessians. *)
Definition half_difference : rmat := mscale (- (1 / 2)) (msub (f2 m) (normal_evaluateSecondDerivative normal m)).
Definition difference : rvec := vsub (f1 m) (normal_evaluateDerivative normal m).
Hypothesis Sol : finds_solution solve d half_difference difference.
Notation md := (find_modifier solve f1 f2 normal).

Lemma second_square x : square d (normal_evaluateSecondDerivative normal x).
Proof.
  unfold normal_evaluateSecondDerivative. destruct SP as [P1 P2]. split; [now rewrite map_length|].
  intros i Hi. rewrite (nth_map_lt _ _ _ _ []) by lia. rewrite vneg_length. auto.
Qed.
Lemma second_entry x i j : (i < d)%nat -> (j < d)%nat -> entry (normal_evaluateSecondDerivative normal x) i j = - entry (no_precision normal) i j.
Proof.
  intros Hi Hj. unfold entry at 1, normal_evaluateSecondDerivative. rewrite (nth_map_lt _ _ _ _ []) by (rewrite (proj1 SP); auto).
  now rewrite nth_vneg.
Qed.
Lemma half_square : square d half_difference.
Proof. apply mscale_square, msub_square; auto. apply second_square. Qed.
Lemma half_entry i j : (i < d)%nat -> (j < d)%nat -> entry half_difference i j = - (1 / 2) * (entry (f2 m) i j + entry (no_precision normal) i j).
Proof.
  intros Hi Hj. unfold half_difference. rewrite entry_mscale, (entry_msub d), second_entry by (auto; apply second_square). ring.
Qed.
Lemma difference_length : length difference = d.
Proof. apply vsub_length; auto. apply (derivative_spec normal d SP Lm m Hd Lm). Qed.
Lemma difference_entry i : (i < d)%nat -> nth i difference 0 = nth i (f1 m) 0 - nth i (normal_evaluateDerivative normal m) 0.
Proof. intros Hi. apply (nth_vsub i _ _ d); auto. apply (derivative_spec normal d SP Lm m Hd Lm). Qed.

Lemma modifier_shape : (exists v, solves_system d half_difference difference v) -> qu_A md = half_difference /\ length (qu_b md) = d /\
  forall i, (i < d)%nat -> 2 * sumR d (fun j => entry half_difference i j * (nth j (qu_b md) 0 - nth j m 0)) = nth i difference 0.
Proof.
  intros Ex. unfold find_modifier, quadratic_initialize. rewrite Lm. destruct (Nat.ltb_spec 0 d); [|lia].
  fold difference. fold half_difference. destruct (Rlt_dec 0 (mnorm half_difference)) as [Pos|Zero].
  - cbn [qu_A qu_b]. destruct (Sol Ex) as [Ls Es]. split; [reflexivity|].
    assert (Lh : length (vscale (1 / 2) (solve half_difference difference)) = d) by (rewrite vscale_length; auto).
    split; [apply vadd_length; auto|]. intros i Hi. rewrite <- (Es i Hi), <- sumR_scal. apply sumR_ext. intros j Hj.
    rewrite (nth_vadd j _ _ d) by auto. rewrite nth_vscale. lra.
  - cbn [qu_A qu_b]. split; [reflexivity|]. split; [auto|]. intros i Hi. destruct Ex as (v & Lv & Ev).
    rewrite <- (Ev i Hi), <- sumR_scal. apply sumR_ext. intros j Hj.
    rewrite (mnorm_zero d half_difference half_square Zero i j Hi Hj). ring.
Qed.
Lemma modifier_at_location : (exists v, solves_system d half_difference difference v) ->
  vadd (f1 m) (quadratic_derivative md m) = normal_evaluateDerivative normal m /\
  madd (f2 m) (quadratic_secondDerivative md m) = normal_evaluateSecondDerivative normal m.
Proof.
  intros Ex. destruct (modifier_shape Ex) as (EA & Lb & Eb).
  assert (SA : square d (qu_A md)) by (rewrite EA; apply half_square).
  destruct (derivative_spec normal d SP Lm m Hd Lm) as [Ln _].
  destruct (derivative_entries md d Hd Lb SA m Lm) as [Ld Ed]. split.
  - apply (vec_ext _ _ d); auto; [apply vadd_length; auto|]. intros i Hi. rewrite (nth_vadd i _ _ d), Ed by auto.
    specialize (Eb i Hi). rewrite difference_entry in Eb by auto.
    enough (sumR d (fun i0 => (nth i0 m 0 - nth i0 (qu_b md) 0) * (entry (qu_A md) i0 i + entry (qu_A md) i i0))
      = - (2 * sumR d (fun j => entry half_difference i j * (nth j (qu_b md) 0 - nth j m 0)))) as -> by lra.
    rewrite <- sumR_scal, <- sumR_opp. apply sumR_ext. intros j Hj. rewrite EA.
    replace (entry half_difference j i) with (entry half_difference i j); [ring|].
    rewrite !half_entry by auto. rewrite (Y2 i j), (YP i j) by auto. reflexivity.
  - apply (mat_ext d).
    + apply madd_square; auto. apply (sym_part md d Hd SA).
    + apply second_square.
    + intros i j Hi Hj. rewrite (entry_madd d), second_entry by (auto; apply (sym_part md d Hd SA)).
      unfold quadratic_secondDerivative. rewrite (sym_entry md d Hd SA i j Hi Hj), EA, !half_entry by auto.
      rewrite (Y2 j i), (YP j i) by auto. lra.
Qed.
End Modifier.

Lemma C31_modifier_main solve normal d f f1 f2 : (0 < d)%nat -> length (no_mean normal) = d ->
  square d (no_precision normal) -> symmetric d (no_precision normal) -> smooth d f f1 f2 ->
  let H := mscale (- (1 / 2)) (msub (f2 (no_mean normal)) (normal_evaluateSecondDerivative normal (no_mean normal))) in
  let g := vsub (f1 (no_mean normal)) (normal_evaluateDerivative normal (no_mean normal)) in
  finds_solution solve d H g -> (exists v, solves_system d H g v) ->
  let q := find_modifier solve f1 f2 normal in
  smooth d (fun x => f x + quadratic_value q x) (fun x => vadd (f1 x) (quadratic_derivative q x))
           (fun x => madd (f2 x) (quadratic_secondDerivative q x)) /\
  vadd (f1 (no_mean normal)) (quadratic_derivative q (no_mean normal)) = normal_evaluateDerivative normal (no_mean normal) /\
  madd (f2 (no_mean normal)) (quadratic_secondDerivative q (no_mean normal)) = normal_evaluateSecondDerivative normal (no_mean normal).
Proof.
  intros Hd Lm SP YP Sm H g Sol Ex q.
  assert (L1 : length (f1 (no_mean normal)) = d) by (apply (s_grad _ _ _ _ Sm); auto).
  assert (S2 : square d (f2 (no_mean normal))).
  { split; [now apply (s_rows _ _ _ _ Sm)|]. intros i Hi. now apply (s_hess _ _ _ _ Sm (no_mean normal) i). }
  assert (Y2 : symmetric d (f2 (no_mean normal))).
  { intros i j Hi Hj. now apply (s_sym _ _ _ _ Sm). }
  split.
  - apply smooth_plus; auto.
    destruct (modifier_shape solve normal d Hd Lm SP f1 f2 L1 S2 Sol Ex) as (EA & Lb & Eb).
    apply quadratic_smooth; auto. fold q in EA. rewrite EA. eapply half_square; eauto.
  - unfold q. eapply modifier_at_location; eauto.
Qed.

(** ** Reading back *)
Lemma mvmul_inverse d S T z : are_inverse d S T -> length z = d -> mvmul S (mvmul T z) = z.
Proof.
  intros ((SL & SR) & (TL & TR) & E) Lz. assert (Lt : length (mvmul T z) = d) by (rewrite mvmul_length; auto).
  apply (vec_ext _ _ d); auto; [rewrite mvmul_length; auto|]. intros i Hi. rewrite (nth_mvmul d) by (auto; split; auto).
  transitivity (sumR d (fun k => row_col d S T i k * nth k z 0)).
  2:{ transitivity (sumR d (fun k => unit_entry i k * nth k z 0)); [apply sumR_ext; intros k Hk; f_equal; now apply E|].
      rewrite (sumR_delta d i (fun k => nth k z 0)); auto. }
  transitivity (sumR d (fun j => sumR d (fun k => entry S i j * entry T j k * nth k z 0))).
  - apply sumR_ext. intros j Hj. rewrite (nth_mvmul d) by (auto; split; auto). rewrite <- sumR_scal. apply sumR_ext. intros k Hk. ring.
  - rewrite sumR_swap. apply sumR_ext. intros k Hk. unfold row_col. rewrite (Rmult_comm (sumR _ _)), <- sumR_scal.
    apply sumR_ext. intros j Hj. ring.
Qed.

Lemma vadd_vsub d x y : length x = d -> length y = d -> vsub (vadd x y) x = y.
Proof.
  intros Lx Ly. assert (L : length (vadd x y) = d) by (apply vadd_length; auto).
  apply (vec_ext _ _ d); auto; [apply vsub_length; auto|]. intros i Hi. rewrite (nth_vsub i _ _ d), (nth_vadd i _ _ d) by auto. lra.
Qed.
Lemma place_length x ls ps d k : grid_point d k ls ps -> length (place x ls ps) = d.
Proof. intros (L & L' & _). unfold place. rewrite map_length, combine_length. lia. Qed.

Section Exact.
Variables (solve : rmat -> rvec -> rvec) (operatorSqrt operatorInverseSqrt : rmat -> rmat).
Variables (b : basis) (k : nat) (D : R -> Prop) (x : nat -> nat -> R) (phi : nat -> nat -> R -> R).
Hypothesis TB : total_basis b k D x phi.
Hypothesis NB : nodal k x phi.
Variables (normal : mnormal) (d : nat).
Hypothesis Lm : length (no_mean normal) = d.
Notation m := (no_mean normal).
Notation S := (operatorSqrt (no_precision normal)).
Notation T := (operatorInverseSqrt (no_precision normal)).
Variables (f : rvec -> R) (f1 : rvec -> rvec) (f2 : rvec -> rmat).
Notation md := (find_modifier solve f1 f2 normal).
Definition target (z : rvec) : R :=
  f (vadd (if Nat.ltb 0 d then m else repeat 0 d) (mvmul (if Nat.ltb 0 d then T else mzero d) z)) +
  quadratic_value md (vadd (if Nat.ltb 0 d then m else repeat 0 d) (mvmul (if Nat.ltb 0 d then T else mzero d) z)) + 1 / 2 * vdot z z.
Lemma store_parts g : grid_of target d b = Ok g ->
  exists s, store_from_normal solve operatorSqrt operatorInverseSqrt f f1 f2 normal b = Ok s /\
    ss_modifier s = md /\ st_grid (ss_stored s) = g /\
    ((0 < d)%nat -> st_shift (ss_stored s) = m /\ st_scale (ss_stored s) = T /\ st_inverseScale (ss_stored s) = S) /\
    (d = 0%nat -> st_inverseScale (ss_stored s) = []).
Proof.
  intros E. unfold store_from_normal, transform_from_normal. rewrite Lm.
  change (fun z : list R => f _ + quadratic_value md _ + 1 / 2 * vdot z z) with target.
  rewrite E. cbn [bind]. eexists. split; [reflexivity|]. cbn [ss_modifier ss_stored st_grid st_shift st_scale st_inverseScale].
  repeat split.
  - destruct (Nat.ltb_spec 0 d); [auto|lia].
  - destruct (Nat.ltb_spec 0 d); [auto|lia].
  - destruct (Nat.ltb_spec 0 d); [auto|lia].
  - intros ->. reflexivity.
Qed.
(** The store is right at the image of every point of the grid. *)
Lemma store_at s y z : ss_modifier s = md -> to_grid (ss_stored s) y = z ->
  interpolate (st_grid (ss_stored s)) z b = Ok (f y + quadratic_value md y + 1 / 2 * vdot z z) ->
  store_evaluate s y b = Ok (f y).
Proof.
  intros Em Ez Ei. unfold store_evaluate, transform_interpolate. rewrite Ez, Ei. cbn [bind]. rewrite Em. f_equal. ring.
Qed.
Lemma C31_exact_main : (0 < d)%nat -> are_inverse d S T ->
  exists s, store_from_normal solve operatorSqrt operatorInverseSqrt f f1 f2 normal b = Ok s /\
    forall ls ps, grid_point d k ls ps ->
      store_evaluate s (vadd m (mvmul T (place x ls ps))) b = Ok (f (vadd m (mvmul T (place x ls ps)))).
Proof.
  intros Hd Inv. destruct (C16_main b k D x phi d target TB NB) as (g & E & H & _).
  destruct (store_parts g E) as (s & Es & Em & Eg & Ep & _). exists s. split; [exact Es|]. intros ls ps G.
  destruct (Ep Hd) as (E1 & E2 & E3). set (z := place x ls ps). assert (Lz : length z = d) by (eapply place_length; eauto).
  assert (Lt : length (mvmul T z) = d) by (rewrite mvmul_length; apply Inv).
  apply (store_at s _ z Em).
  - unfold to_grid. rewrite E1, E3. rewrite (vadd_vsub d) by auto. now apply (mvmul_inverse d).
  - rewrite Eg. unfold z. rewrite (H ls ps G). unfold target. destruct (Nat.ltb_spec 0 d); [reflexivity|lia].
Qed.
Lemma mvmul_zero M : square d M -> mvmul M (repeat 0 d) = repeat 0 d.
Proof.
  intros SM. apply (vec_ext _ _ d); [rewrite mvmul_length; apply SM|apply repeat_length|]. intros i Hi.
  rewrite (nth_mvmul d) by (auto; apply repeat_length). rewrite nth_repeat.
  rewrite (sumR_ext d _ (fun _ => 0)); [apply sumR_zero|]. intros j Hj. rewrite nth_repeat. ring.
Qed.
(** And at the mean, if the first knot is 0. *)
Lemma C31_mean_main : x 0%nat 0%nat = 0 -> ((0 < d)%nat -> square d S /\ square d T) ->
  exists s, store_from_normal solve operatorSqrt operatorInverseSqrt f f1 f2 normal b = Ok s /\
    store_evaluate s m b = Ok (f m).
Proof.
  intros X0 Sq. destruct (C16_main b k D x phi d target TB NB) as (g & E & H & _).
  destruct (store_parts g E) as (s & Es & Em & Eg & Ep & E0). exists s. split; [exact Es|].
  assert (G : grid_point d k (repeat 0%nat d) (repeat 0%nat d)).
  { repeat split; try apply repeat_length.
    - clear. induction d; simpl in *; lia.
    - clear. induction d; constructor; auto. }
  assert (Ez : place x (repeat 0%nat d) (repeat 0%nat d) = repeat 0 d).
  { unfold place. clear - X0. induction d; cbn; [reflexivity|]. now rewrite X0, IHn. }
  specialize (H _ _ G). rewrite Ez in H.
  assert (Em' : vadd (if Nat.ltb 0 d then m else repeat 0 d) (mvmul (if Nat.ltb 0 d then T else mzero d) (repeat 0 d)) = m).
  { destruct (Nat.ltb_spec 0 d) as [P|P].
    - rewrite mvmul_zero by (apply Sq; auto). apply (vec_ext _ _ d); auto; [apply vadd_length; auto; apply repeat_length|].
      intros i Hi. rewrite (nth_vadd i _ _ d) by (auto; apply repeat_length). rewrite nth_repeat. ring.
    - assert (Ed : d = 0%nat) by lia. rewrite Ed in *. destruct m; [reflexivity|discriminate]. }
  apply (store_at s _ (repeat 0 d) Em).
  - unfold to_grid. destruct (Nat.eq_dec d 0) as [Ed|Nd].
    + rewrite E0 by auto. rewrite Ed. reflexivity.
    + destruct (Ep ltac:(lia)) as (E1 & E2 & E3). rewrite E1, E3. replace (vsub m m) with (repeat 0 d); [apply mvmul_zero, Sq; lia|].
      apply (vec_ext _ _ d); [apply repeat_length|apply vsub_length; auto|]. intros i Hi. rewrite nth_repeat, (nth_vsub i _ _ d) by auto. ring.
  - rewrite Eg, H. unfold target. now rewrite Em'.
Qed.
End Exact.

(** ** Quadratic functions are stored without error *)
Lemma grid_constant b k D x phi d f c : total_basis b k D x phi -> nodal k x phi -> (forall y, phi 0%nat 0%nat y = 1) ->
  (forall z, length z = d -> f z = c) ->
  exists g, grid_of f d b = Ok g /\ forall y, length y = d -> List.Forall D y -> interpolate g y b = Ok c.
Proof.
  intros TB NB P0 Hf.
  assert (G : grid_point d k (repeat 0%nat d) (repeat 0%nat d)).
  { repeat split; try apply repeat_length.
    - clear. induction d; simpl in *; lia.
    - clear. induction d; constructor; auto. }
  assert (Pr : forall y, product phi (repeat 0%nat d) (repeat 0%nat d) y = 1).
  { clear - P0. unfold product. induction d as [|d IH]; intros y; [reflexivity|]. destruct y as [|v y]; [reflexivity|].
    cbn in *. rewrite P0, IH. ring. }
  assert (Cb : forall y, combination phi [(c, (repeat 0%nat d, repeat 0%nat d))] y = c).
  { intros y. unfold combination. cbn [map fold_right fst snd]. rewrite Pr. ring. }
  destruct (C49_span_main b k D x phi d f [(c, (repeat 0%nat d, repeat 0%nat d))] TB NB) as (g & mx & E & _ & (ls & ps & G' & M) & H).
  - repeat constructor; apply G.
  - intros ls ps G'. rewrite Cb. apply Hf. eapply place_length; eauto.
  - exists g. split; [exact E|]. intros y Ly Dy. rewrite H, Cb by auto. f_equal.
    rewrite <- M, Hf by (eapply place_length; eauto). apply Rmin_left. lra.
Qed.

Section Quad.
Variables (solve : rmat -> rvec -> rvec) (operatorSqrt operatorInverseSqrt : rmat -> rmat).
Variables (b : basis) (k : nat) (D : R -> Prop) (x : nat -> nat -> R) (phi : nat -> nat -> R -> R).
Hypothesis TB : total_basis b k D x phi.
Hypothesis NB : nodal k x phi.
Hypothesis P0 : forall y, phi 0%nat 0%nat y = 1.
Variables (normal : mnormal) (d : nat).
Hypothesis Hd : (0 < d)%nat.
Hypothesis Lm : length (no_mean normal) = d.
Hypothesis SP : square d (no_precision normal).
Hypothesis YP : symmetric d (no_precision normal).
Notation m := (no_mean normal).
Notation S := (operatorSqrt (no_precision normal)).
Notation T := (operatorInverseSqrt (no_precision normal)).
Hypothesis Rt : matrix_roots d (no_precision normal) S T.
Variables (c : R) (g : rvec) (H : rmat).
Hypothesis Lg : length g = d.
Hypothesis SH : square d H.
Hypothesis YH : symmetric d H.
Variables (f : rvec -> R) (f1 : rvec -> rvec) (f2 : rvec -> rmat).
Hypothesis Ef : forall y, length y = d -> f y = quadratic_function d c g H m y.
Hypothesis E1 : f1 m = g.
Hypothesis E2 : f2 m = H.
Notation Hd2 := (half_difference normal f2).
Hypothesis Sol : finds_solution solve d Hd2 g.
Hypothesis Ex : exists v, solves_system d Hd2 g v.
Notation md := (find_modifier solve f1 f2 normal).

Lemma normal_derivative_mean : normal_evaluateDerivative normal m = repeat 0 d.
Proof.
  destruct (derivative_spec normal d SP Lm m Hd Lm) as [L E]. apply (vec_ext _ _ d); auto; [apply repeat_length|]. intros j Hj.
  rewrite E, nth_repeat by auto. rewrite (sumR_ext d _ (fun _ => 0)); [rewrite sumR_zero; ring|]. intros i Hi. ring.
Qed.
Lemma difference_g : difference normal f1 = g.
Proof.
  unfold difference. rewrite normal_derivative_mean, E1. apply (vec_ext _ _ d); auto; [apply vsub_length; auto; apply repeat_length|].
  intros i Hi. rewrite (nth_vsub i _ _ d) by (auto; apply repeat_length). rewrite nth_repeat. ring.
Qed.
(** Only a constant and the normal are left. *)
Lemma sum_is_normal : exists e, forall y, length y = d -> f y + quadratic_value md y = e - 1 / 2 * quad d (no_precision normal) m y.
Proof.
  assert (L1 : length (f1 m) = d) by (rewrite E1; auto). assert (S2 : square d (f2 m)) by (rewrite E2; auto).
  assert (Sol' : finds_solution solve d Hd2 (difference normal f1)) by (rewrite difference_g; auto).
  assert (Ex' : exists v, solves_system d Hd2 (difference normal f1) v) by (rewrite difference_g; auto).
  destruct (modifier_shape solve normal d Hd Lm SP f1 f2 L1 S2 Sol' Ex') as (EA & Lb & Eb).
  assert (HA : forall i j, (i < d)%nat -> (j < d)%nat -> entry (qu_A md) i j = - (1 / 2) * (entry H i j + entry (no_precision normal) i j)).
  { intros i j Hi Hj. rewrite EA, (half_entry normal d Hd Lm SP f1 f2 L1 S2 i j Hi Hj). now rewrite E2. }
  assert (SA : square d (qu_A md)) by (rewrite EA; eapply half_square; eauto).
  set (w := fun i => - (nth i (qu_b md) 0 - nth i m 0)).
  exists (c + bil d (entry (qu_A md)) w w). intros y Ly. rewrite Ef by auto. unfold quadratic_function.
  rewrite (quadratic_bil md d Lb SA y Ly). set (u := fun i => nth i y 0 - nth i m 0).
  rewrite (quad_bil d (qu_A md)). rewrite (bil_ext d (entry (qu_A md)) (entry (qu_A md)) _ (fun i => u i + w i) _ (fun i => u i + w i)); auto;
    try (intros i Hi; unfold u, w; ring).
  rewrite bil_expand by (intros i j Hi Hj; rewrite !HA by auto; rewrite (YH i j), (YP i j) by auto; reflexivity).
  assert (Euu : bil d (entry (qu_A md)) u u = - (1 / 2) * (bil d (entry H) u u + bil d (entry (no_precision normal)) u u)).
  { rewrite <- bil_plus_A, <- bil_scal_A. apply bil_ext; auto. }
  assert (Euw : 2 * bil d (entry (qu_A md)) u w = - sumR d (fun i => nth i g 0 * (nth i y 0 - nth i m 0))).
  { rewrite bil_row, <- sumR_scal, <- sumR_opp. apply sumR_ext. intros i Hi. fold (u i).
    specialize (Eb i Hi). rewrite difference_g in Eb. rewrite <- Eb.
    rewrite (sumR_ext d (fun j => entry (qu_A md) i j * w j) (fun j => - (entry Hd2 i j * (nth j (qu_b md) 0 - nth j m 0)))).
    2:{ intros j Hj. rewrite EA. unfold w. ring. }
    rewrite sumR_opp. ring. }
  rewrite !quad_bil. fold u. lra.
Qed.
Lemma root_norm y : length y = d -> vdot (mvmul S (vsub y m)) (mvmul S (vsub y m)) = quad d (no_precision normal) m y.
Proof.
  intros Ly. destruct Rt as (Inv & YS & ES). assert (SS : square d S) by apply Inv.
  assert (Ld : length (vsub y m) = d) by (apply vsub_length; auto).
  assert (Lz : length (mvmul S (vsub y m)) = d) by (rewrite mvmul_length; apply SS).
  rewrite (vdot_sum _ _ d) by auto. rewrite quad_bil. set (u := fun i => nth i y 0 - nth i m 0).
  transitivity (sumR d (fun i => sumR d (fun j => sumR d (fun l => entry S i j * entry S i l * (u j * u l))))).
  - apply sumR_ext. intros i Hi. rewrite (nth_mvmul d) by auto.
    transitivity (sumR d (fun j => entry S i j * u j) * sumR d (fun l => entry S i l * u l)).
    + f_equal; apply sumR_ext; intros j Hj; rewrite (nth_vsub j _ _ d) by auto; reflexivity.
    + rewrite <- sumR_scal_r. apply sumR_ext. intros j Hj. rewrite <- sumR_scal. apply sumR_ext. intros l Hl. ring.
  - rewrite sumR_swap. unfold bil. apply sumR_ext. intros j Hj. rewrite sumR_swap. apply sumR_ext. intros l Hl.
    rewrite sumR_scal_r. rewrite <- (ES j l) by auto. unfold row_col.
    rewrite (sumR_ext d _ (fun i => entry S j i * entry S i l)); [ring|]. intros i Hi. rewrite (YS i j) by auto. reflexivity.
Qed.
Lemma C49_quadratic_main : exists s, store_from_normal solve operatorSqrt operatorInverseSqrt f f1 f2 normal b = Ok s /\
  forall y, length y = d -> List.Forall D (mvmul S (vsub y m)) -> store_evaluate s y b = Ok (f y).
Proof.
  destruct sum_is_normal as (e & He). assert (Inv : are_inverse d S T) by apply Rt.
  destruct (grid_constant b k D x phi d (target solve operatorInverseSqrt normal d f f1 f2) e TB NB P0) as (gr & Eg & Hg).
  { intros z Lz. unfold target. destruct (Nat.ltb_spec 0 d); [|lia].
    assert (Lt : length (mvmul T z) = d) by (rewrite mvmul_length; apply Inv).
    assert (Ly : length (vadd m (mvmul T z)) = d) by (apply vadd_length; auto).
    rewrite (He _ Ly), <- (root_norm _ Ly), (vadd_vsub d) by auto. rewrite (mvmul_inverse d S T) by auto. ring. }
  destruct (store_parts solve operatorSqrt operatorInverseSqrt b normal d Lm f f1 f2 gr Eg) as (s & Es & Em & Eg' & Ep & _).
  exists s. split; [exact Es|]. intros y Ly Dy. destruct (Ep Hd) as (P1 & P2 & P3).
  apply (store_at solve b normal f f1 f2 s y (mvmul S (vsub y m)) Em).
  - unfold to_grid. now rewrite P1, P3.
  - rewrite Eg', Hg; auto; [|rewrite mvmul_length; apply Inv]. f_equal. rewrite (He y Ly), root_norm by auto. ring.
Qed.
End Quad.
