(** C68: the basis of level 0, and agreement where all conversions are defined. *)
From Coq Require Import List Arith ZArith Reals Bool Lia Lra.
From Verif Require Import Model.Base Model.SparseGrid Model.Vectors Model.BasisLevel Model.AnyConversion Spec.NodalSpec Proofs.MessageLemmas.
Import ListNotations.
Local Open Scope R_scope.

Section Any.
Variables (any_int : site -> nat -> Z) (any_unsigned : R -> nat) (q : R -> R) (inverse : rmat -> rmat) (solve : rmat -> rmat -> rmat).
Notation abasis := (any_basis_new any_int any_unsigned q inverse solve).

(** ** Level 0 *)
Lemma bandwidth_0 : bandwidth q 0 = 0.
Proof. reflexivity. Qed.
Lemma any_level_0 : exists M z, any_level_new any_int q inverse solve 0 0 = Ok (mkData 0 [0] M 0 (repeat 0%nat z)).
Proof.
  unfold any_level_new, any_splineCoefficients, any_knotsTotal, coefficients_all. cbn [numKnots Nat.pow Nat.add Nat.mul Nat.sub seq map length Nat.ltb Nat.leb Nat.eqb bind].
  match goal with |- context [mapM ?f ?l] => assert (E : exists M, mapM f l = Ok M) end.
  { eexists. unfold mat_get, vec_get. cbn [mapM nth_error repeat concat app bind Nat.mul Nat.add]. reflexivity. }
  destruct E as [M E]. rewrite E. cbn [bind]. exists M. unfold any_knots, any_gridIds. cbn [Nat.pow seq map numKnots Nat.add Nat.mul Nat.sub fold_left fst snd app].
  rewrite bandwidth_0, Rmult_0_r. eexists. reflexivity.
Qed.

Lemma any_interval_0 M z x : exists i, any_findIntervalId any_unsigned (mkData 0 [0] M 0 (repeat 0%nat z)) x = Ok i.
Proof.
  unfold any_findIntervalId. cbn [ld_knots vec_at nth_error bind ld_gridIds ld_level]. destruct (Rlt_dec 0 x); [|eauto]. cbv zeta.
  rewrite repeat_length. destruct (Nat.ltb _ z) eqn:E; [|eauto]. apply Nat.ltb_lt in E.
  unfold vec_get. match goal with |- context [nth_error ?l ?n] => destruct (nth_error l n) eqn:N end; [eauto|].
  apply nth_error_None in N. rewrite repeat_length in N. lia.
Qed.

Lemma C68_constant_main : exists b, abasis 0%nat = Ok b /\ b_levelMax b = 0%nat /\ b_getKnot b 0 0 = Ok 0 /\
  forall x, b_evaluate b x 0 0 = Ok 1 /\ b_evaluateDerivative b x 0 0 = Ok 0 /\ b_evaluateSecondDerivative b x 0 0 = Ok 0.
Proof.
  unfold any_basis_new. destruct any_level_0 as (M & z & E). cbn [Nat.add seq mapM]. rewrite E. cbn [bind map].
  eexists. split; [reflexivity|]. split; [reflexivity|]. split; [reflexivity|]. intros x.
  unfold b_evaluate, b_evaluateDerivative, b_evaluateSecondDerivative, vec_get. cbn [b_levels nth_error bind any_level_of bl_eval bl_deriv bl_deriv2].
  unfold any_evaluate, any_evaluateDerivative, any_evaluateSecondDerivative. destruct (any_interval_0 M z x) as [i Hi]. rewrite Hi. auto.
Qed.

Lemma any_basis_0_total b : abasis 0%nat = Ok b -> total_basis b 0 (fun _ => True) (fun _ _ => 0) (fun _ _ _ => 1) /\ nodal 0 (fun _ _ => 0) (fun _ _ _ => 1).
Proof.
  destruct C68_constant_main as (b' & E & Hm & Hk & He). rewrite E. intros H. injection H as <-. split; [constructor; auto|].
  - intros l j Hl Hj. assert (l = 0%nat) by lia. subst l. cbn in Hj. assert (j = 0%nat) by lia. subst j. exact Hk.
  - intros l j y Hl Hj _. assert (l = 0%nat) by lia. subst l. cbn in Hj. assert (j = 0%nat) by lia. subst j. apply He.
  - intros l j l' j' Hl Hj Hl' Hj'. assert (l = 0%nat) by lia. subst l. assert (l' = 0%nat) by lia. subst l'. cbn in Hj, Hj'.
    assert (j = 0%nat) by lia. assert (j' = 0%nat) by lia. subst. reflexivity.
Qed.

(** ** Where all conversions are defined *)
Lemma mapM_defined {A B C} (f : A -> outcome B) (g : B -> C) (h : A -> C) l m : mapM (fun a => bind (f a) (fun v => Ok (g v))) l = Ok m ->
  (forall a v, f a = Ok v -> h a = g v) -> map h l = m.
Proof.
  revert m. induction l as [|a l IH]; intros m E H; [injection E as <-; reflexivity|].
  cbn [mapM] in E. destruct (f a) as [v|e| |] eqn:Ea; try discriminate. cbn [bind] in E.
  destruct (mapM _ l) as [m'|e| |] eqn:El; try discriminate. injection E as <-. cbn [map]. rewrite (H a v Ea), (IH m' eq_refl H). reflexivity.
Qed.
Lemma any_knot_id_defined p i levelMax prob z : knot_id q levelMax prob = Ok z -> any_knot_id any_int q p i levelMax prob = z.
Proof. unfold any_knot_id. now intros ->. Qed.

Lemma any_knots_defined l L ks : find_knots q l L = Ok ks -> any_knots any_int q l L = ks.
Proof.
  unfold find_knots, any_knots. cbv zeta. intros E. refine (mapM_defined _ (fun id => IZR id * bandwidth q L) _ _ _ E _).
  intros i z Hz. now rewrite (any_knot_id_defined _ _ _ _ _ Hz).
Qed.
Lemma any_knotsTotal_defined l L ks : findKnotsTotal q l L = Ok ks -> any_knotsTotal any_int q l L = ks.
Proof.
  unfold findKnotsTotal, any_knotsTotal. intros E. refine (mapM_defined _ (fun id => IZR id * bandwidth q L) _ _ _ E _).
  intros i z Hz. now rewrite (any_knot_id_defined _ _ _ _ _ Hz).
Qed.
Lemma any_gridIds_defined l L g : find_gridIds q l L = Ok g -> any_gridIds any_int q l L = g.
Proof.
  unfold find_gridIds, any_gridIds. intros E. destruct (foldM _ _ _) as [s|e| |] eqn:F; try discriminate. injection E as <-. f_equal.
  revert F. generalize (@nil nat, 0%Z). induction (seq 0 (numKnots l)) as [|i is IH]; intros s0 F; [now injection F|].
  cbn [foldM fold_left] in *. destruct (knot_id q L (total_prob l i)) as [z|e| |] eqn:Ez; try discriminate. cbn [bind] in F.
  rewrite (any_knot_id_defined _ _ _ _ _ Ez). apply IH, F.
Qed.
Lemma any_level_defined l L d : level_new q inverse solve l L = Ok d -> any_level_new any_int q inverse solve l L = Ok d /\ ld_bandwidth d <> 0.
Proof.
  unfold level_new, any_level_new. destruct (find_knots q l L) as [ks|e| |] eqn:Ek; try discriminate. cbn [bind].
  destruct (find_gridIds q l L) as [g|e| |] eqn:Eg; try discriminate. cbn [bind]. unfold splineCoefficients, any_splineCoefficients.
  destruct (findKnotsTotal q l L) as [kt|e| |] eqn:Et; try discriminate. cbn [bind]. rewrite (any_knotsTotal_defined _ _ _ Et).
  destruct (bind (coefficients_all inverse solve l kt) _) as [m|e| |]; try discriminate. cbn [bind]. intros H. injection H as <-.
  rewrite (any_knots_defined _ _ _ Ek), (any_gridIds_defined _ _ _ Eg). split; [reflexivity|]. cbn [ld_bandwidth].
  unfold find_knots in Ek. cbv zeta in Ek. destruct (2 ^ l)%nat as [|n] eqn:En; [apply Nat.pow_nonzero in En; [easy|lia]|].
  cbn [seq mapM] in Ek. unfold knot_id in Ek. cbv zeta in Ek. unfold quotient_to_int in Ek at 1. destruct (Req_EM_T (bandwidth q L) 0); [discriminate|auto].
Qed.

Lemma any_interval_defined d x i : ld_bandwidth d <> 0 -> findIntervalId d x = Ok i -> any_findIntervalId any_unsigned d x = Ok i.
Proof.
  intros Hb. unfold findIntervalId, any_findIntervalId. destruct (vec_at (ld_knots d) 0) as [first|e| |]; try discriminate. cbn [bind].
  destruct (Rlt_dec first x); [|auto]. unfold any_to_grid. destruct (Req_EM_T (ld_bandwidth d) 0); [easy|].
  destruct (to_unsigned _) as [n0|e| |]; try discriminate. auto.
Qed.

Lemma C68_defined_main L b : basis_new q inverse solve L = Ok b -> exists b', abasis L = Ok b' /\ b_levelMax b' = b_levelMax b /\
  forall l j x v, (b_getKnot b l j = Ok v -> b_getKnot b' l j = Ok v) /\ (b_evaluate b x l j = Ok v -> b_evaluate b' x l j = Ok v) /\
    (b_evaluateDerivative b x l j = Ok v -> b_evaluateDerivative b' x l j = Ok v) /\
    (b_evaluateSecondDerivative b x l j = Ok v -> b_evaluateSecondDerivative b' x l j = Ok v).
Proof.
  unfold basis_new, any_basis_new. destruct (mapM _ _) as [ls|e| |] eqn:E; try discriminate. cbn [bind]. intros H. injection H as <-.
  assert (A : mapM (fun l => any_level_new any_int q inverse solve l L) (seq 0 (L + 1)) = Ok ls /\ forall d, In d ls -> ld_bandwidth d <> 0).
  { revert ls E. induction (seq 0 (L + 1)) as [|l ll IH]; intros ls E; [injection E as <-; split; [reflexivity|easy]|].
    cbn [mapM] in E. destruct (level_new q inverse solve l L) as [d|e| |] eqn:Ed; try discriminate. cbn [bind] in E.
    destruct (mapM _ ll) as [ls'|e| |] eqn:El; try discriminate. injection E as <-. destruct (IH ls' eq_refl) as [I1 I2].
    destruct (any_level_defined _ _ _ Ed) as [A1 A2]. cbn [mapM]. rewrite A1. cbn [bind]. rewrite I1. split; [reflexivity|]. intros d' [<-|Hd]; auto. }
  destruct A as [A Hb]. rewrite A. cbn [bind]. eexists. split; [reflexivity|]. split; [reflexivity|]. intros l j x v.
  unfold b_getKnot, b_evaluate, b_evaluateDerivative, b_evaluateSecondDerivative, vec_get. cbn [b_levels]. rewrite !nth_error_map.
  destruct (nth_error ls l) as [d|] eqn:Nd; cbn [option_map bind]; [|repeat split; discriminate].
  apply nth_error_In in Nd. specialize (Hb d Nd). cbn [any_level_of level_of bl_knot bl_eval bl_deriv bl_deriv2].
  unfold any_evaluate, any_evaluateDerivative, any_evaluateSecondDerivative, level_evaluate, level_evaluateDerivative, level_evaluateSecondDerivative.
  destruct (findIntervalId d x) as [i|e| |] eqn:Ei; cbn [bind]; repeat split; auto; try discriminate.
  all: rewrite (any_interval_defined _ _ _ Hb Ei); auto.
Qed.
End Any.
