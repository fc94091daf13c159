(** C28, C47: products and derivatives of normal densities. *)
From Coq Require Import List Reals Lia Lra Arith Bool.
From Verif Require Import Model.Base Model.Mixed Model.Vectors Model.MultiNormal
  Spec.GLMMSpec Spec.MatrixSpec Spec.Calculus
  Proofs.GLMMLemmas Proofs.VectorLemmas Proofs.CalculusLemmas Proofs.SumLemmas.
Import ListNotations.
Local Open Scope R_scope.

(** * Bilinear forms *)
Definition bil (d : nat) (A : nat -> nat -> R) (u v : nat -> R) : R :=
  sumR d (fun i => sumR d (fun j => u i * A i j * v j)).

Lemma bil_ext d A A' u u' v v' : (forall i j, (i < d)%nat -> (j < d)%nat -> A i j = A' i j) ->
  (forall i, (i < d)%nat -> u i = u' i) -> (forall i, (i < d)%nat -> v i = v' i) ->
  bil d A u v = bil d A' u' v'.
Proof.
  intros HA Hu Hv. unfold bil. apply sumR_ext. intros i Hi. apply sumR_ext. intros j Hj.
  rewrite HA, Hu, Hv by auto. reflexivity.
Qed.
Lemma bil_plus_l d A u u' v : bil d A (fun i => u i + u' i) v = bil d A u v + bil d A u' v.
Proof.
  unfold bil. rewrite <- sumR_plus. apply sumR_ext. intros i _. rewrite <- sumR_plus. apply sumR_ext. intros j _. ring.
Qed.
Lemma bil_plus_r d A u v v' : bil d A u (fun i => v i + v' i) = bil d A u v + bil d A u v'.
Proof.
  unfold bil. rewrite <- sumR_plus. apply sumR_ext. intros i _. rewrite <- sumR_plus. apply sumR_ext. intros j _. ring.
Qed.
Lemma bil_sym d A u v : (forall i j, (i < d)%nat -> (j < d)%nat -> A i j = A j i) -> bil d A u v = bil d A v u.
Proof.
  intros H. unfold bil. rewrite sumR_swap. apply sumR_ext. intros i Hi. apply sumR_ext. intros j Hj.
  rewrite H by auto. ring.
Qed.
Lemma bil_row d A u v : bil d A u v = sumR d (fun i => u i * sumR d (fun j => A i j * v j)).
Proof.
  unfold bil. apply sumR_ext. intros i _. rewrite <- sumR_scal. apply sumR_ext. intros j _. ring.
Qed.
Lemma bil_expand d A u v : (forall i j, (i < d)%nat -> (j < d)%nat -> A i j = A j i) ->
  bil d A (fun i => u i + v i) (fun i => u i + v i) = bil d A u u + 2 * bil d A u v + bil d A v v.
Proof. intros H. rewrite bil_plus_l, !bil_plus_r, (bil_sym d A v u) by auto. ring. Qed.
Lemma bil_plus_A d A A' u v : bil d (fun i j => A i j + A' i j) u v = bil d A u v + bil d A' u v.
Proof.
  unfold bil. rewrite <- sumR_plus. apply sumR_ext. intros i _. rewrite <- sumR_plus. apply sumR_ext. intros j _. ring.
Qed.
Lemma bil_scal_A d c A u v : bil d (fun i j => c * A i j) u v = c * bil d A u v.
Proof.
  unfold bil. rewrite <- sumR_scal. apply sumR_ext. intros i _. rewrite <- sumR_scal. apply sumR_ext. intros j _. ring.
Qed.
Lemma quad_bil d P m x : quad d P m x = bil d (entry P) (fun i => nth i x 0 - nth i m 0) (fun i => nth i x 0 - nth i m 0).
Proof. reflexivity. Qed.

(** * Values and derivatives *)
Section Value.
Variable (n : mnormal) (d : nat).
Hypothesis HP : square d (no_precision n).
Hypothesis Hm : length (no_mean n) = d.

Lemma evaluate_quad x : length x = d ->
  normal_evaluate n x = no_normalizer n - 1 / 2 * quad d (no_precision n) (no_mean n) x.
Proof.
  intros Lx. unfold normal_evaluate.
  assert (Ld : length (vsub x (no_mean n)) = d) by (apply vsub_length; auto).
  rewrite (vdot_sum _ _ d); auto; [|rewrite mvmul_length; apply HP].
  rewrite quad_bil, bil_row.
  enough (sumR d (fun i => nth i (vsub x (no_mean n)) 0 * nth i (mvmul (no_precision n) (vsub x (no_mean n))) 0)
          = sumR d (fun i => (nth i x 0 - nth i (no_mean n) 0)
                * sumR d (fun j => entry (no_precision n) i j * (nth j x 0 - nth j (no_mean n) 0)))) as -> by lra.
  apply sumR_ext. intros i Hi. rewrite (nth_vsub i _ _ d) by auto. f_equal.
  rewrite (nth_mvmul d) by auto. apply sumR_ext. intros j Hj. rewrite (nth_vsub j _ _ d) by auto. reflexivity.
Qed.

Lemma derivative_spec x : (0 < d)%nat -> length x = d ->
  length (normal_evaluateDerivative n x) = d /\
  forall j, (j < d)%nat -> nth j (normal_evaluateDerivative n x) 0
    = - sumR d (fun i => (nth i x 0 - nth i (no_mean n) 0) * entry (no_precision n) i j).
Proof.
  intros Hd Lx. unfold normal_evaluateDerivative.
  assert (Ld : length (vsub x (no_mean n)) = d) by (apply vsub_length; auto).
  destruct (vmmul_spec d d (no_precision n) (vneg (vsub x (no_mean n))) (proj1 HP)
              ltac:(rewrite vneg_length; exact Ld) Hd (proj2 HP)) as [A B].
  split; [exact A|]. intros j Hj. rewrite B by auto. rewrite <- sumR_opp. apply sumR_ext. intros i Hi.
  rewrite nth_vneg, (nth_vsub i _ _ d) by auto. ring.
Qed.

Lemma nth_norm1 h i : Rabs (nth i h 0) <= norm1 h.
Proof.
  revert i. unfold norm1. induction h as [|a h IH]; intros [|i]; cbn; try (rewrite Rabs_R0; lra).
  - pose proof (norm1_pos h). unfold norm1 in *. lra.
  - specialize (IH i). pose proof (Rabs_pos a). lra.
Qed.
Lemma nth_plus_v i x h k : length x = k -> length h = k -> (i < k)%nat ->
  nth i (plus_v x h) 0 = nth i x 0 + nth i h 0.
Proof. intros. exact (nth_vadd i x h k H H0 H1). Qed.

Hypothesis Hsym : symmetric d (no_precision n).
Lemma C47_main : (0 < d)%nat ->
  smooth d (normal_evaluate n) (normal_evaluateDerivative n) (normal_evaluateSecondDerivative n).
Proof.
  intros Hd. set (P := no_precision n) in *. set (m := no_mean n) in *.
  assert (HrowL : forall i, (i < d)%nat -> nth i (map vneg P) [] = vneg (nth i P [])).
  { intros i Hi. rewrite (nth_map_lt _ _ _ _ []); [reflexivity|]. rewrite (proj1 HP). exact Hi. }
  split.
  - intros x Lx. destruct (derivative_spec x Hd Lx) as [Lg Eg]. split; [exact Lg|].
    set (C := sumR d (fun i => sumR d (fun j => Rabs (entry P i j)))).
    assert (HC : 0 <= C).
    { apply Rle_trans with (sumR d (fun _ => 0)); [rewrite sumR_zero; lra|]. apply sumR_le. intros i _.
      apply Rle_trans with (sumR d (fun _ => 0)); [rewrite sumR_zero; lra|]. apply sumR_le. intros j _. apply Rabs_pos. }
    intros eps He. exists (eps / (C + 1)). split; [apply Rdiv_lt_0_compat; lra|].
    intros h Lh Nh. pose proof (norm1_pos h) as N0.
    rewrite !evaluate_quad by (auto; apply plus_v_length; auto).
    fold P m. rewrite (scalar_sum _ _ d) by auto.
    set (u := fun i => nth i h 0). set (v := fun i => nth i x 0 - nth i m 0).
    assert (E1 : quad d P m (plus_v x h) = bil d (entry P) v v + 2 * bil d (entry P) v u + bil d (entry P) u u).
    { rewrite <- bil_expand by (intros; apply Hsym; auto). rewrite quad_bil. apply bil_ext; auto;
      intros i Hi; rewrite (nth_plus_v i x h d) by auto; unfold u, v; ring. }
    assert (E2 : sumR d (fun i => nth i (normal_evaluateDerivative n x) 0 * nth i h 0) = - bil d (entry P) v u).
    { rewrite (bil_sym d _ v u) by (intros; apply Hsym; auto). rewrite bil_row, <- sumR_opp.
      apply sumR_ext. intros i Hi. rewrite Eg by auto. unfold u, v. fold P m.
      rewrite (sumR_ext d (fun k => (nth k x 0 - nth k m 0) * entry P k i) (fun j => entry P i j * (nth j x 0 - nth j m 0))).
      - ring.
      - intros j Hj. rewrite (Hsym i j) by auto. ring. }
    rewrite E1, E2. rewrite quad_bil. fold v.
    replace (_ - _ - _ - _) with (- (1 / 2) * bil d (entry P) u u) by lra.
    rewrite Rabs_mult. replace (Rabs (- (1 / 2))) with (1 / 2) by (rewrite Rabs_Ropp, Rabs_pos_eq; lra).
    assert (B : Rabs (bil d (entry P) u u) <= C * norm1 h * norm1 h).
    { unfold bil. eapply Rle_trans; [apply sumR_abs|]. unfold C. rewrite Rmult_assoc, <- sumR_scal_r.
      apply sumR_le. intros i Hi. eapply Rle_trans; [apply sumR_abs|]. rewrite <- sumR_scal_r.
      apply sumR_le. intros j Hj. unfold u. rewrite !Rabs_mult.
      pose proof (nth_norm1 h i). pose proof (nth_norm1 h j). pose proof (Rabs_pos (nth i h 0)).
      pose proof (Rabs_pos (nth j h 0)). pose proof (Rabs_pos (entry P i j)).
      replace (Rabs (nth i h 0) * Rabs (entry P i j) * Rabs (nth j h 0))
        with (Rabs (entry P i j) * (Rabs (nth i h 0) * Rabs (nth j h 0))) by ring.
      apply Rmult_le_compat_l; auto. apply Rmult_le_compat; auto. }
    assert (C * norm1 h <= eps).
    { apply Rle_trans with ((C + 1) * (eps / (C + 1))); [|right; field; lra]. apply Rmult_le_compat; lra. }
    nra.
  - intros x Lx. unfold normal_evaluateSecondDerivative. fold P. rewrite map_length. exact (proj1 HP).
  - intros x i Lx Hi. unfold normal_evaluateSecondDerivative. fold P. rewrite HrowL by auto.
    split; [rewrite vneg_length; apply HP; auto|]. intros eps He. exists 1. split; [lra|]. intros h Lh _.
    assert (Lxh : length (plus_v x h) = d) by (apply plus_v_length; auto).
    destruct (derivative_spec x Hd Lx) as [_ Eg]. destruct (derivative_spec (plus_v x h) Hd Lxh) as [_ Eh].
    rewrite Eg, Eh by auto. rewrite scalar_vneg, (scalar_sum _ _ d) by (auto; apply HP; auto). fold P m.
    rewrite (sumR_ext d (fun k => nth k (nth i P []) 0 * nth k h 0)
      (fun k => (nth k (plus_v x h) 0 - nth k m 0) * entry P k i - (nth k x 0 - nth k m 0) * entry P k i)).
    + rewrite sumR_minus. match goal with |- Rabs ?z <= _ => replace z with 0 by ring end.
      rewrite Rabs_R0. pose proof (norm1_pos h). nra.
    + intros k Hk. rewrite (nth_plus_v k x h d) by auto. rewrite <- (Hsym i k) by auto. unfold entry. ring.
  - intros x i j Lx Hi Hj. unfold normal_evaluateSecondDerivative. fold P. rewrite !HrowL by auto.
    rewrite !nth_vneg. f_equal. apply Hsym; auto.
Qed.
End Value.

(** * Products with a normal on a subset *)
Section Product.
Variables (inverse : rmat -> rmat) (determinant : rmat -> R) (n normal : mnormal) (sub : list nat) (divide : bool).
Notation d := (length (no_mean n)).
Notation k := (length sub).
Notation P := (no_precision n).
Notation m := (no_mean n).
Notation m2 := (no_mean normal).
Definition sign_of (divide : bool) : R := if divide then -1 else 1.
Notation e := (sign_of divide).
Hypothesis HP : square d P.
Hypothesis HPs : symmetric d P.
Hypothesis HQ : square k (no_precision normal).
Hypothesis HQs : symmetric k (no_precision normal).
Hypothesis Hm2 : length m2 = k.
Hypothesis ND : NoDup sub.
Hypothesis Hsub : forall i, In i sub -> (i < d)%nat.
Let at_ a := nth a sub 0%nat.
Let Q := if divide then mscale (-1) (no_precision normal) else no_precision normal.
Let N := madd (msubset P sub) Q.
Hypothesis Hinv : exists B, are_inverse k N B.
Hypothesis Hrun : inverts inverse k N.
Let res := multiplySubsetInternal inverse determinant n normal sub divide.
Let m' := no_mean res.
Let P' := no_precision res.

Let at_lt a : (a < k)%nat -> (at_ a < d)%nat.
Proof. intros H. apply Hsub, nth_In, H. Qed.

Lemma Q_square : square k Q.
Proof. unfold Q. destruct divide; [apply mscale_square|]; exact HQ. Qed.
Lemma Q_entry a b : entry Q a b = e * entry (no_precision normal) a b.
Proof. unfold Q. destruct divide; cbn; [rewrite entry_mscale|]; ring. Qed.
Lemma Q_sym : symmetric k Q.
Proof. intros a b Ha Hb. rewrite !Q_entry, HQs by auto. reflexivity. Qed.
Lemma N_square : square k N.
Proof. unfold N. apply madd_square; [apply msubset_square|apply Q_square]. Qed.
Lemma N_entry a b : (a < k)%nat -> (b < k)%nat -> entry N a b = entry P (at_ a) (at_ b) + entry Q a b.
Proof.
  intros Ha Hb. unfold N. rewrite (entry_madd k) by (auto using Q_square, msubset_square).
  rewrite entry_msubset by auto. reflexivity.
Qed.

(** The new mean. *)
Let mu := if Nat.ltb 0 (length N)
          then mvmul (inverse N) (vadd (mvmul (msubset P sub) (vsubset m sub)) (mvmul Q m2))
          else vsubset m sub.
Lemma mean_shape : m' = setVectorSubset m mu sub.
Proof. reflexivity. Qed.
Lemma prec_shape : P' = setMatrixSubset P N sub.
Proof. reflexivity. Qed.
Lemma mean_length : length m' = d.
Proof. rewrite mean_shape. apply setVectorSubset_length. Qed.

Lemma inv_N : are_inverse k N (inverse N).
Proof. destruct Hinv as [B HB]. rewrite (Hrun B HB). exact HB. Qed.
Lemma mu_length : length mu = k.
Proof.
  unfold mu. rewrite (proj1 N_square). destruct (Nat.ltb 0 k); [|apply vsubset_length].
  rewrite mvmul_length. apply inv_N.
Qed.
Lemma mu_solves a : (a < k)%nat ->
  sumR k (fun b => entry N a b * nth b mu 0)
  = sumR k (fun b => entry P (at_ a) (at_ b) * nth (at_ b) m 0) + sumR k (fun b => entry Q a b * nth b m2 0).
Proof.
  intros Ha. unfold mu. rewrite (proj1 N_square). destruct (Nat.ltb_spec 0 k); [|lia].
  destruct inv_N as [_ [SI HI]].
  set (r := vadd (mvmul (msubset P sub) (vsubset m sub)) (mvmul Q m2)).
  assert (Lr : length r = k).
  { apply vadd_length; rewrite mvmul_length; [apply msubset_square|apply Q_square]. }
  rewrite (sumR_ext k _ (fun b => sumR k (fun c => entry N a b * entry (inverse N) b c * nth c r 0))).
  2:{ intros b Hb. rewrite (nth_mvmul k) by auto. rewrite <- sumR_scal. apply sumR_ext. intros c _. ring. }
  rewrite sumR_swap.
  rewrite (sumR_ext k _ (fun c => unit_entry a c * nth c r 0)).
  2:{ intros c Hc. rewrite sumR_scal_r. destruct (HI a c Ha Hc) as [E _]. unfold row_col in E. rewrite E. reflexivity. }
  rewrite sumR_delta by auto. unfold r.
  rewrite (nth_vadd a _ _ k); auto.
  - rewrite (nth_mvmul k) by (auto using msubset_square, vsubset_length).
    rewrite (nth_mvmul k) by (auto using Q_square).
    f_equal. apply sumR_ext. intros b Hb. rewrite entry_msubset, nth_vsubset by auto. reflexivity.
  - rewrite mvmul_length. apply msubset_square.
  - rewrite mvmul_length. apply Q_square.
Qed.
Lemma mean_in a : (a < k)%nat -> nth (at_ a) m' 0 = nth a mu 0.
Proof. intros Ha. rewrite mean_shape. apply setVectorSubset_in; auto. apply mu_length. Qed.
Lemma mean_out i : ~ In i sub -> nth i m' 0 = nth i m 0.
Proof. intros Hi. rewrite mean_shape. apply setVectorSubset_out; auto. Qed.

(** The new precision. *)
Let E i j := sumR k (fun a => sumR k (fun b => unit_entry (at_ a) i * entry Q a b * unit_entry (at_ b) j)).
Lemma unit_at a i : (a < k)%nat -> ~ In i sub -> unit_entry (at_ a) i = 0.
Proof.
  intros Ha Hi. unfold unit_entry. destruct (Nat.eqb_spec (at_ a) i) as [<-|]; [|reflexivity].
  exfalso. apply Hi, nth_In, Ha.
Qed.
Lemma unit_at_at a b : (a < k)%nat -> (b < k)%nat -> unit_entry (at_ a) (at_ b) = unit_entry a b.
Proof.
  intros Ha Hb. unfold unit_entry. destruct (Nat.eqb_spec (at_ a) (at_ b)) as [H|H], (Nat.eqb_spec a b) as [H'|H']; auto.
  - exfalso. apply H'. apply (NoDup_nth_inj sub); auto.
  - exfalso. apply H. rewrite H'. reflexivity.
Qed.
Lemma unit_entry_sym i j : unit_entry i j = unit_entry j i.
Proof. unfold unit_entry. rewrite Nat.eqb_sym. reflexivity. Qed.
Lemma E_out i j : ~ In i sub \/ ~ In j sub -> E i j = 0.
Proof.
  intros H. unfold E. rewrite <- (sumR_zero k). apply sumR_ext. intros a Ha. rewrite <- (sumR_zero k).
  apply sumR_ext. intros b Hb. destruct H as [H|H]; [rewrite (unit_at a i Ha H)|rewrite (unit_at b j Hb H)]; ring.
Qed.
Lemma E_in a b : (a < k)%nat -> (b < k)%nat -> E (at_ a) (at_ b) = entry Q a b.
Proof.
  intros Ha Hb. unfold E.
  rewrite (sumR_ext k _ (fun c => unit_entry a c * entry Q c b)).
  2:{ intros c Hc. rewrite (sumR_ext k _ (fun c' => (unit_entry a c * entry Q c c') * unit_entry c' b)).
      - rewrite sumR_delta_r by auto. reflexivity.
      - intros c' Hc'. rewrite !unit_at_at by auto. rewrite (unit_entry_sym c a). ring. }
  exact (sumR_delta k a (fun c => entry Q c b) Ha).
Qed.
Lemma P'_entry i j : (i < d)%nat -> (j < d)%nat -> entry P' i j = entry P i j + E i j.
Proof.
  intros Hi Hj. rewrite prec_shape. unfold setMatrixSubset, entry.
  destruct (in_dec Nat.eq_dec i sub) as [Ii|Ii].
  2:{ rewrite setMatrixRows_out by auto. rewrite E_out by auto. ring. }
  destruct (In_position sub i Ii) as [a [Ha Ea]]. subst i.
  rewrite setMatrixRows_in; auto.
  2:{ intros i Hi'. rewrite (proj1 HP). auto. }
  2:{ apply N_square. }
  destruct (in_dec Nat.eq_dec j sub) as [Ij|Ij].
  2:{ rewrite setVectorSubset_out by auto. rewrite E_out by auto. ring. }
  destruct (In_position sub j Ij) as [b [Hb Eb]]. subst j.
  rewrite setVectorSubset_in; auto.
  2:{ intros j Hj'. rewrite (proj2 HP) by auto. auto. }
  2:{ apply N_square. exact Ha. }
  fold (at_ a) (at_ b). rewrite E_in by auto. fold (entry N a b). rewrite N_entry by auto. reflexivity.
Qed.
Lemma P'_square : square d P'.
Proof.
  rewrite prec_shape. unfold setMatrixSubset. split; [rewrite setMatrixRows_length; apply HP|].
  intros i Hi. destruct (in_dec Nat.eq_dec i sub) as [Ii|Ii].
  - destruct (In_position sub i Ii) as [a [Ha Ea]]. subst i. rewrite setMatrixRows_in; auto.
    + rewrite setVectorSubset_length. apply HP. exact Hi.
    + intros i Hi'. rewrite (proj1 HP). auto.
    + apply N_square.
  - rewrite setMatrixRows_out by auto. apply HP. exact Hi.
Qed.

(** u^T E v = u_S^T Q v_S. *)
Lemma pick a f : (a < k)%nat -> sumR d (fun i => f i * unit_entry (at_ a) i) = f (at_ a).
Proof.
  intros Ha. rewrite (sumR_ext d _ (fun i => unit_entry (at_ a) i * f i)) by (intros; ring).
  apply sumR_delta. apply at_lt, Ha.
Qed.
Lemma row_E i v : sumR d (fun j => E i j * v j)
  = sumR k (fun a => unit_entry (at_ a) i * sumR k (fun b => entry Q a b * v (at_ b))).
Proof.
  unfold E.
  rewrite (sumR_ext d _ (fun j => sumR k (fun a => sumR k (fun b => unit_entry (at_ a) i * entry Q a b * unit_entry (at_ b) j * v j)))).
  2:{ intros j _. rewrite <- sumR_scal_r. apply sumR_ext. intros a _. rewrite <- sumR_scal_r. reflexivity. }
  rewrite sumR_swap. apply sumR_ext. intros a Ha. rewrite sumR_swap. rewrite <- sumR_scal. apply sumR_ext. intros b Hb.
  rewrite (sumR_ext d _ (fun j => (unit_entry (at_ a) i * entry Q a b * v j) * unit_entry (at_ b) j)) by (intros; ring).
  rewrite pick by auto. ring.
Qed.
Lemma bil_E u v : bil d E u v = bil k (entry Q) (fun a => u (at_ a)) (fun b => v (at_ b)).
Proof.
  rewrite !bil_row.
  rewrite (sumR_ext d _ (fun i => sumR k (fun a => (u i * sumR k (fun b => entry Q a b * v (at_ b))) * unit_entry (at_ a) i))).
  2:{ intros i _. rewrite row_E, <- sumR_scal. apply sumR_ext. intros a _. ring. }
  rewrite sumR_swap. apply sumR_ext. intros a Ha. rewrite pick by auto. reflexivity.
Qed.

(** Half the gradient of the product at the new mean. *)
Let dm i := nth i m' 0 - nth i m 0.
Let w i := sumR d (fun j => entry P i j * dm j)
           + sumR k (fun a => unit_entry (at_ a) i * sumR k (fun b => entry Q a b * (nth (at_ b) m' 0 - nth b m2 0))).

Lemma dm_sum i : sumR d (fun j => entry P i j * dm j) = sumR k (fun b => entry P i (at_ b) * dm (at_ b)).
Proof.
  rewrite (sumR_ext d _ (fun j => sumR k (fun b => (entry P i j * dm j) * unit_entry (at_ b) j))).
  - rewrite sumR_swap. apply sumR_ext. intros b Hb. apply pick. exact Hb.
  - intros j Hj. rewrite sumR_scal. destruct (in_dec Nat.eq_dec j sub) as [Ij|Ij].
    + destruct (In_position sub j Ij) as [b [Hb Eb]]. fold (at_ b) in Eb. subst j.
      rewrite (sumR_ext k _ (fun c => unit_entry b c * 1)).
      * rewrite (sumR_delta k b (fun _ => 1)) by auto. ring.
      * intros c Hc. rewrite unit_at_at by auto. rewrite unit_entry_sym. ring.
    + unfold dm. rewrite mean_out by auto. ring.
Qed.
Lemma w_in a : (a < k)%nat -> w (at_ a) = 0.
Proof.
  intros Ha. unfold w. rewrite dm_sum.
  rewrite (sumR_ext k (fun a0 => unit_entry (at_ a0) (at_ a) * _)
            (fun c => unit_entry a c * sumR k (fun b => entry Q c b * (nth (at_ b) m' 0 - nth b m2 0)))).
  2:{ intros c Hc. rewrite unit_at_at by auto. rewrite unit_entry_sym. reflexivity. }
  rewrite sumR_delta by auto.
  pose proof (mu_solves a Ha) as S.
  rewrite (sumR_ext k (fun b => entry P (at_ a) (at_ b) * dm (at_ b))
             (fun b => entry P (at_ a) (at_ b) * nth b mu 0 - entry P (at_ a) (at_ b) * nth (at_ b) m 0)).
  2:{ intros b Hb. unfold dm. rewrite mean_in by auto. ring. }
  rewrite (sumR_ext k (fun b => entry Q a b * (nth (at_ b) m' 0 - nth b m2 0))
             (fun b => entry Q a b * nth b mu 0 - entry Q a b * nth b m2 0)).
  2:{ intros b Hb. rewrite mean_in by auto. ring. }
  rewrite !sumR_minus.
  rewrite (sumR_ext k (fun b => entry N a b * nth b mu 0)
     (fun b => entry P (at_ a) (at_ b) * nth b mu 0 + entry Q a b * nth b mu 0)) in S.
  2:{ intros b Hb. rewrite N_entry by auto. ring. }
  rewrite sumR_plus in S. lra.
Qed.
Lemma w_out i : ~ In i sub -> w i = sumR k (fun b => entry P i (at_ b) * (nth (at_ b) m' 0 - nth (at_ b) m 0)).
Proof.
  intros Hi. unfold w. rewrite dm_sum.
  rewrite (sumR_ext k (fun a => unit_entry (at_ a) i * _) (fun _ => 0)).
  - rewrite sumR_zero. unfold dm. ring.
  - intros a Ha. rewrite unit_at by auto. ring.
Qed.

Let const := quad d P m m' + quad k Q m2 (vsubset m' sub).
Lemma product_expansion x : length x = d ->
  quad d P m x + quad k Q m2 (vsubset x sub)
  = quad d P' m' x + 2 * sumR d (fun i => (nth i x 0 - nth i m' 0) * w i) + const.
Proof.
  intros Lx. set (z := fun i => nth i x 0 - nth i m' 0).
  assert (E1 : quad d P m x = bil d (entry P) z z + 2 * bil d (entry P) z dm + bil d (entry P) dm dm).
  { rewrite <- bil_expand by (intros; apply HPs; auto). rewrite quad_bil. apply bil_ext; auto; intros i Hi; unfold z, dm; ring. }
  set (v := fun b => nth (at_ b) m' 0 - nth b m2 0).
  assert (E2 : quad k Q m2 (vsubset x sub) = bil k (entry Q) (fun a => z (at_ a)) (fun a => z (at_ a))
     + 2 * bil k (entry Q) (fun a => z (at_ a)) v + bil k (entry Q) v v).
  { rewrite <- bil_expand by (intros; apply Q_sym; auto). rewrite quad_bil. apply bil_ext; auto;
    intros i Hi; rewrite nth_vsubset by auto; unfold z, v; fold (at_ i); ring. }
  assert (E3 : quad d P' m' x = bil d (entry P) z z + bil k (entry Q) (fun a => z (at_ a)) (fun a => z (at_ a))).
  { rewrite <- bil_E, <- bil_plus_A. rewrite quad_bil. apply bil_ext; auto. intros i j Hi Hj. apply P'_entry; auto. }
  assert (E4 : sumR d (fun i => z i * w i) = bil d (entry P) z dm + bil k (entry Q) (fun a => z (at_ a)) v).
  { unfold w. rewrite (sumR_ext d _ (fun i => z i * sumR d (fun j => entry P i j * dm j)
       + sumR k (fun a => (z i * sumR k (fun b => entry Q a b * v b)) * unit_entry (at_ a) i))).
    - rewrite sumR_plus, !bil_row. f_equal. rewrite sumR_swap. apply sumR_ext. intros a Ha. rewrite pick by auto. reflexivity.
    - intros i _. rewrite Rmult_plus_distr_l. f_equal. rewrite <- sumR_scal. apply sumR_ext. intros a _. unfold v. ring. }
  assert (E5 : const = bil d (entry P) dm dm + bil k (entry Q) v v).
  { unfold const. rewrite !quad_bil. f_equal. apply bil_ext; auto; intros i Hi; rewrite nth_vsubset by auto; reflexivity. }
  rewrite E1, E2, E3, E5. change (sumR d (fun i => (nth i x 0 - nth i m' 0) * w i)) with (sumR d (fun i => z i * w i)). rewrite E4. ring.
Qed.

Lemma quad_Q x : quad k Q m2 x = e * quad k (no_precision normal) m2 x.
Proof. rewrite !quad_bil, <- bil_scal_A. apply bil_ext; auto. intros; apply Q_entry. Qed.

Theorem C28_iff :
  (exists c, forall x, length x = d ->
     normal_evaluate res x = normal_evaluate n x + e * normal_evaluate normal (vsubset x sub) + c) <->
  (forall i, (i < d)%nat -> ~ In i sub ->
     sumR k (fun a => entry P i (nth a sub 0%nat) * (nth (nth a sub 0%nat) m' 0 - nth (nth a sub 0%nat) m 0)) = 0).
Proof.
  assert (Ev : forall x, length x = d -> normal_evaluate n x + e * normal_evaluate normal (vsubset x sub)
    = normal_evaluate res x + (no_normalizer n + e * no_normalizer normal - no_normalizer res)
      - (sumR d (fun i => (nth i x 0 - nth i m' 0) * w i) + 1 / 2 * const)).
  { intros x Lx. rewrite (evaluate_quad n d) by auto. rewrite (evaluate_quad normal k) by (auto using vsubset_length).
    rewrite (evaluate_quad res d) by (auto using P'_square, mean_length).
    pose proof (product_expansion x Lx) as H. rewrite quad_Q in H. fold P' m'. nra. }
  assert (Hw : (forall i, (i < d)%nat -> w i = 0) <-> (forall i, (i < d)%nat -> ~ In i sub ->
     sumR k (fun a => entry P i (nth a sub 0%nat) * (nth (nth a sub 0%nat) m' 0 - nth (nth a sub 0%nat) m 0)) = 0)).
  { split.
    - intros H i Hi Ni. pose proof (H i Hi) as X. rewrite w_out in X by auto. exact X.
    - intros H i Hi. destruct (in_dec Nat.eq_dec i sub) as [Ii|Ii].
      + destruct (In_position sub i Ii) as [a [Ha Ea]]. rewrite <- Ea. apply (w_in a Ha).
      + rewrite w_out by auto. apply H; auto. }
  rewrite <- Hw. split.
  - intros [c Hc] i Hi.
    assert (L0 : length m' = d) by apply mean_length.
    assert (L1 : length (upd m' i (nth i m' 0 + 1)) = d) by (rewrite upd_length; auto).
    pose proof (Hc m' L0) as A0. pose proof (Hc _ L1) as A1. rewrite Ev in A0, A1 by auto.
    rewrite (sumR_ext d _ (fun _ => 0)) in A0 by (intros; ring). rewrite sumR_zero in A0.
    rewrite (sumR_single d i) in A1; [| exact Hi|].
    2:{ intros j Hj Hne. rewrite nth_upd_ne by auto. ring. }
    rewrite nth_upd_eq in A1 by (rewrite L0; exact Hi). lra.
  - intros H. exists (no_normalizer res - no_normalizer n - e * no_normalizer normal + 1 / 2 * const).
    intros x Lx. pose proof (Ev x Lx) as A. rewrite (sumR_ext d _ (fun _ => 0)) in A.
    + rewrite sumR_zero in A. lra.
    + intros i Hi. rewrite H by auto. ring.
Qed.

(** Means which agree are kept. *)
Lemma mean_agree : vsubset m sub = m2 -> m' = m.
Proof.
  intros Hag. assert (Emu : forall a, (a < k)%nat -> nth a mu 0 = nth (at_ a) m 0).
  { intros a Ha. destruct inv_N as [_ [SI HI]].
    assert (Hdelta : forall f, (forall b, (b < k)%nat -> sumR k (fun c => entry N b c * f c)
        = sumR k (fun c => entry N b c * nth (at_ c) m 0)) -> f a = nth (at_ a) m 0).
    { intros f Hf.
      assert (G : forall f, f a = sumR k (fun b => entry (inverse N) a b * sumR k (fun c => entry N b c * f c))).
      { intros g. rewrite (sumR_ext k _ (fun b => sumR k (fun c => entry (inverse N) a b * entry N b c * g c))).
        - rewrite sumR_swap. rewrite (sumR_ext k _ (fun c => unit_entry a c * g c)); [rewrite sumR_delta; auto|].
          intros c Hc. rewrite sumR_scal_r. destruct (HI a c Ha Hc) as [_ X]. unfold row_col in X. rewrite X. reflexivity.
        - intros b _. rewrite <- sumR_scal. apply sumR_ext. intros c _. ring. }
      rewrite (G f), (G (fun c => nth (at_ c) m 0)). apply sumR_ext. intros b Hb. rewrite Hf by auto. reflexivity. }
    apply (Hdelta (fun b => nth b mu 0)). intros b Hb. rewrite mu_solves by auto. rewrite <- sumR_plus. apply sumR_ext. intros c Hc.
    rewrite N_entry by auto. rewrite <- Hag, nth_vsubset by auto. fold (at_ c). ring. }
  apply (vec_ext _ _ d); [apply mean_length|reflexivity|]. intros i Hi.
  destruct (in_dec Nat.eq_dec i sub) as [Ii|Ii]; [|apply mean_out; auto].
  destruct (In_position sub i Ii) as [a [Ha Ea]]. fold (at_ a) in Ea. subst i. rewrite mean_in by auto. auto.
Qed.

Theorem C28_agree : vsubset m sub = m2 -> m' = m /\
  exists c, forall x, length x = d ->
     normal_evaluate res x = normal_evaluate n x + e * normal_evaluate normal (vsubset x sub) + c.
Proof.
  intros Hag. split; [apply mean_agree, Hag|]. apply C28_iff. intros i _ _. rewrite <- (sumR_zero k).
  apply sumR_ext. intros a _. rewrite mean_agree by auto. ring.
Qed.

Theorem C28_everything : (forall i, (i < d)%nat -> In i sub) ->
  exists c, forall x, length x = d ->
     normal_evaluate res x = normal_evaluate n x + e * normal_evaluate normal (vsubset x sub) + c.
Proof. intros H. apply C28_iff. intros i Hi Ni. elim Ni. auto. Qed.
End Product.
