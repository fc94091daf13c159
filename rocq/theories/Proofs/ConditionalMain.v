(** C27: where the quadrature is centred and how wide it is. *)
From Coq Require Import List Reals Lia Lra Arith Bool.
From Verif Require Import Model.Base Model.Mixed Model.Vectors Model.MultiNormal Model.Quadrature
  Model.IntegratedFunction Spec.GLMMSpec Spec.MatrixSpec Spec.Calculus Spec.RuleSpec
  Proofs.GLMMLemmas Proofs.VectorLemmas Proofs.SumLemmas Proofs.NormalMain Proofs.IntegratedMain.
Import ListNotations.
Local Open Scope R_scope.

Definition mat_of (n : nat) (f : nat -> nat -> R) : rmat := map (fun i => map (f i) (seq 0 n)) (seq 0 n).
Lemma mat_of_square n f : square n (mat_of n f).
Proof.
  split; [unfold mat_of; rewrite map_length, seq_length; reflexivity|]. intros i Hi. unfold mat_of.
  rewrite (nth_map_lt _ _ _ _ 0%nat) by (rewrite seq_length; auto). rewrite map_length, seq_length. reflexivity.
Qed.
Lemma mat_of_entry n f i j : (i < n)%nat -> (j < n)%nat -> entry (mat_of n f) i j = f i j.
Proof.
  intros Hi Hj. unfold entry, mat_of. rewrite (nth_map_lt _ _ _ _ 0%nat) by (rewrite seq_length; auto).
  rewrite (nth_map_lt _ _ _ _ 0%nat) by (rewrite seq_length; auto). rewrite !seq_nth by auto. reflexivity.
Qed.

Lemma inverse_symmetric d P V : are_inverse d P V -> symmetric d P -> symmetric d V.
Proof.
  intros [SP [SV H]] HS i j Hi Hj.
  (* V_ji = sum_k (sum_l V_li P_lk) V_kj ... *)
  assert (A : forall a b, (a < d)%nat -> (b < d)%nat ->
    entry V a b = sumR d (fun k => sumR d (fun l => entry V l a * entry P l k * entry V k b))).
  { intros a b Ha Hb.
    rewrite (sumR_ext d _ (fun k => unit_entry a k * entry V k b)).
    - rewrite sumR_delta by auto. reflexivity.
    - intros k Hk. rewrite sumR_scal_r. f_equal.
      rewrite (sumR_ext d _ (fun l => entry P k l * entry V l a)).
      + destruct (H k a Hk Ha) as [E _]. unfold row_col in E. rewrite E. apply unit_entry_sym.
      + intros l Hl. rewrite (HS l k) by auto. ring. }
  rewrite (A i j), (A j i) by auto. rewrite sumR_swap. apply sumR_ext. intros k Hk. apply sumR_ext. intros l Hl.
  rewrite (HS k l) by auto. ring.
Qed.

Section Conditional.
Variables (P V : rmat) (n o : nat).
Hypothesis Ho : (o <= n)%nat.
Hypothesis HPV : are_inverse (S n) P V.
Hypothesis Hsym : symmetric (S n) P.
Hypothesis Hpos : 0 < entry P o o.
Notation Poo := (entry P o o).
Let u i := up o i.
Let u_lt i : (i < n)%nat -> (u i < S n)%nat.
Proof. intros H. apply up_lt; auto. Qed.
Let o_lt : (o < S n)%nat. Proof. lia. Qed.
Let Vsym : symmetric (S n) V.
Proof. exact (inverse_symmetric _ _ _ HPV Hsym). Qed.

Lemma PV i j : (i < S n)%nat -> (j < S n)%nat ->
  sumR n (fun k => entry P i (u k) * entry V (u k) j) = unit_entry i j - entry P i o * entry V o j.
Proof.
  intros Hi Hj. destruct (proj2 (proj2 HPV) i j Hi Hj) as [E _]. unfold row_col in E.
  rewrite (sumR_up n o) in E by auto. unfold u. lra.
Qed.
Lemma VP i j : (i < S n)%nat -> (j < S n)%nat ->
  sumR n (fun k => entry V i (u k) * entry P (u k) j) = unit_entry i j - entry V i o * entry P o j.
Proof.
  intros Hi Hj. destruct (proj2 (proj2 HPV) i j Hi Hj) as [_ E]. unfold row_col in E.
  rewrite (sumR_up n o) in E by auto. unfold u. lra.
Qed.
Lemma unit_up i j : unit_entry (u i) (u j) = unit_entry i j.
Proof.
  unfold unit_entry, u, up. destruct (Nat.ltb_spec i o), (Nat.ltb_spec j o);
  destruct (Nat.eqb_spec i j); try match goal with |- context [Nat.eqb ?a ?b] => destruct (Nat.eqb_spec a b) end; auto; lia.
Qed.
Lemma unit_up_o i : unit_entry (u i) o = 0.
Proof. unfold unit_entry, u. pose proof (up_ne o i). destruct (Nat.eqb_spec (up o i) o); [tauto|reflexivity]. Qed.
Lemma unit_o_up i : unit_entry o (u i) = 0.
Proof. rewrite unit_entry_sym. apply unit_up_o. Qed.
Lemma unit_oo : unit_entry o o = 1.
Proof. unfold unit_entry. rewrite Nat.eqb_refl. reflexivity. Qed.

Lemma V22_entry i j : (i < n)%nat -> entry (getMatrixWithout o V) i j = entry V (u i) (u j).
Proof.
  intros Hi. unfold entry. rewrite (nth_mwithout o i _ n) by (auto; apply HPV). rewrite nth_erase. reflexivity.
Qed.
Lemma V22_square : square n (getMatrixWithout o V).
Proof.
  pose proof HPV as [_ [[LV RV] _]]. split.
  - unfold getMatrixWithout. rewrite map_length. apply erase_length; auto.
  - intros i Hi. rewrite (nth_mwithout o i _ n) by auto. apply erase_length; auto.
Qed.
Let B := mat_of n (fun i j => entry P (u i) (u j) - entry P (u i) o * entry P o (u j) / Poo).
Lemma V22_inverse : are_inverse n (getMatrixWithout o V) B.
Proof.
  split; [apply V22_square|]. split; [apply mat_of_square|]. intros i j Hi Hj. unfold row_col. split.
  - rewrite (sumR_ext n _ (fun k => entry V (u i) (u k) * entry P (u k) (u j)
       - (entry V (u i) (u k) * entry P (u k) o) * (entry P o (u j) / Poo))).
    + rewrite sumR_minus, sumR_scal_r, !VP by auto. rewrite unit_up, unit_up_o. field. lra.
    + intros k Hk. rewrite V22_entry by auto. unfold B. rewrite mat_of_entry by auto. field. lra.
  - rewrite (sumR_ext n _ (fun k => entry P (u i) (u k) * entry V (u k) (u j)
       - (entry P (u i) o / Poo) * (entry P o (u k) * entry V (u k) (u j)))).
    + rewrite sumR_minus, sumR_scal, !PV by auto. rewrite unit_up, unit_o_up. field. lra.
    + intros k Hk. rewrite V22_entry by auto. unfold B. rewrite mat_of_entry by auto. field. lra.
Qed.

Lemma v21_length : length (getVectorWithout o (nth o V [])) = n.
Proof. unfold getVectorWithout. apply erase_length; auto. apply HPV. exact o_lt. Qed.
Lemma v21_nth j : nth j (getVectorWithout o (nth o V [])) 0 = entry V o (u j).
Proof. unfold getVectorWithout. rewrite nth_erase. reflexivity. Qed.

Let cross := mvmul B (getVectorWithout o (nth o V [])).
Lemma cross_length : length cross = n.
Proof. unfold cross. rewrite mvmul_length. apply mat_of_square. Qed.
Lemma cross_nth j : (j < n)%nat -> nth j cross 0 = - entry P o (u j) / Poo.
Proof.
  intros Hj. unfold cross. rewrite (nth_mvmul n); [|apply mat_of_square|apply v21_length|exact Hj].
  rewrite (sumR_ext n _ (fun k => entry P (u j) (u k) * entry V (u k) o
       - (entry P (u j) o / Poo) * (entry P o (u k) * entry V (u k) o))).
  - rewrite sumR_minus, sumR_scal, !PV by auto. rewrite unit_up_o, unit_oo.
    rewrite (Hsym o (u j)) by auto. field. lra.
  - intros k Hk. rewrite v21_nth. unfold B. rewrite mat_of_entry by auto. rewrite (Vsym o (u k)) by auto. field. lra.
Qed.
Lemma conditional_variance :
  entry V o o - vdot (getVectorWithout o (nth o V [])) cross = / Poo.
Proof.
  rewrite (vdot_sum _ _ n) by (auto using v21_length, cross_length).
  rewrite (sumR_ext n _ (fun k => (- / Poo) * (entry V o (u k) * entry P (u k) o))).
  - rewrite sumR_scal, VP by auto. rewrite unit_oo. field. lra.
  - intros k Hk. rewrite v21_nth, cross_nth by auto. rewrite (Hsym (u k) o) by auto. field. lra.
Qed.

(** The conditional mean. *)
Lemma quad_insert m x t : length m = S n -> length x = n ->
  quad (S n) P m (insert o x t)
  = Poo * (t - nth o m 0) ^ 2
    + 2 * (t - nth o m 0) * sumR n (fun j => entry P o (u j) * (nth j x 0 - nth (u j) m 0))
    + sumR n (fun i => sumR n (fun j => (nth i x 0 - nth (u i) m 0) * entry P (u i) (u j) * (nth j x 0 - nth (u j) m 0))).
Proof.
  intros Lm Lx. unfold quad. rewrite (sumR_up n o) by auto.
  assert (Eo : nth o (insert o x t) 0 = t) by (apply nth_insert_same; lia).
  assert (Eu : forall i, nth (up o i) (insert o x t) 0 = nth i x 0) by (intros; apply nth_insert_up; lia).
  rewrite (sumR_up n o) by auto. rewrite Eo.
  rewrite (sumR_ext n (fun i => sumR (S n) _)
    (fun i => (t - nth o m 0) * (entry P o (u i) * (nth i x 0 - nth (u i) m 0))
       + sumR n (fun j => (nth i x 0 - nth (u i) m 0) * entry P (u i) (u j) * (nth j x 0 - nth (u j) m 0)))).
  2:{ intros i Hi. rewrite (sumR_up n o) by auto. rewrite Eo, Eu. rewrite (Hsym (up o i) o); [|exact (u_lt i Hi)|exact o_lt].
      f_equal; [unfold u; ring|]. apply sumR_ext. intros j Hj. rewrite Eu. reflexivity. }
  rewrite sumR_plus, sumR_scal.
  rewrite (sumR_ext n (fun i => (t - nth o m 0) * entry P o (up o i) * (nth (up o i) (insert o x t) 0 - nth (up o i) m 0))
     (fun j => (t - nth o m 0) * (entry P o (u j) * (nth j x 0 - nth (u j) m 0)))).
  2:{ intros j Hj. rewrite Eu. unfold u. ring. }
  rewrite sumR_scal. ring.
Qed.

Lemma regression m x : length m = S n -> length x = n ->
  forall c, conditional_mean (S n) P m o (fun t => insert o x t) c <->
    c = nth o m 0 + vdot cross (vsub x (getVectorWithout o m)).
Proof.
  intros Lm Lx.
  assert (Le : length (getVectorWithout o m) = n) by (unfold getVectorWithout; apply erase_length; auto).
  assert (Ec : sumR n (fun j => entry P o (u j) * (nth j x 0 - nth (u j) m 0))
               = - Poo * vdot cross (vsub x (getVectorWithout o m))).
  { rewrite (vdot_sum _ _ n) by (auto using cross_length, vsub_length). rewrite <- sumR_scal. apply sumR_ext.
    intros j Hj. rewrite cross_nth, (nth_vsub j _ _ n) by auto. unfold getVectorWithout. rewrite nth_erase.
    unfold u. field. unfold u in *. lra. }
  intros c. unfold conditional_mean. split.
  - intros H. pose proof (H (c + 1)) as H1. rewrite !quad_insert, Ec in H1 by auto.
    set (s := vdot cross (vsub x (getVectorWithout o m))) in *.
    assert (Poo * (c - nth o m 0 - s) = 0) as E by nra.
    apply Rmult_integral in E. destruct E; lra.
  - intros -> t. rewrite !quad_insert, Ec by auto. ring.
Qed.
End Conditional.

(** * The members of an IntegratedFunction *)
Section Made.
Variables (inverse : rmat -> rmat) (determinant : rmat -> R) (isProper : mnormal -> bool).
Variables (o n : nat) (f : rvec -> R) (g : rvec -> rvec) (H : rvec -> rmat) (normal : mnormal).
Let N := initializeNormal inverse determinant isProper normal.
Hypothesis Ho : (o <= n)%nat.
Hypothesis Lm : length (no_mean N) = S n.
Hypothesis HPV : are_inverse (S n) (no_precision N) (no_variance N).
Hypothesis Hsym : symmetric (S n) (no_precision N).
Hypothesis Hpos : 0 < entry (no_precision N) o o.
Hypothesis Hinv : inverts inverse n (getMatrixWithout o (no_variance N)).
Let i := make_ifun inverse determinant isProper o f g H normal.
Let B := mat_of n (fun i j => entry (no_precision N) (up o i) (up o j)
  - entry (no_precision N) (up o i) o * entry (no_precision N) o (up o j) / entry (no_precision N) o o).
Let cross := mvmul B (getVectorWithout o (nth o (no_variance N) [])).

Lemma made_members : if_over i = o /\ if_function i = f /\ if_derivative i = g /\ if_secondDerivative i = H /\
  if_mean1 i = nth o (no_mean N) 0 /\ if_mean2 i = getVectorWithout o (no_mean N) /\
  if_cross i = cross /\ if_sigma i = sqrt (/ entry (no_precision N) o o).
Proof.
  pose proof (conditional_variance _ _ n o Ho HPV Hsym Hpos) as CV. fold B in CV. fold cross in CV.
  pose proof (V22_inverse _ _ n o Ho HPV Hpos) as VI. fold B in VI. pose proof (Hinv _ VI) as EI.
  destruct HPV as [_ [[LV RV] Hpv]].
  unfold i, make_ifun. fold N. rewrite LV.
  replace (length (hd [] (no_variance N))) with (S n).
  2:{ symmetry. destruct (no_variance N) as [|row rows]; [cbn in LV; lia|]. apply (RV 0%nat). lia. }
  destruct (Nat.ltb_spec 1 (S n * S n)) as [Hn|Hn].
  - cbn [if_over if_function if_derivative if_secondDerivative if_mean1 if_mean2 if_cross if_sigma].
    rewrite EI. fold cross. repeat split; auto. f_equal. exact CV.
  - assert (n = 0)%nat by nia. assert (o = 0)%nat by lia.
    cbn [if_over if_function if_derivative if_secondDerivative if_mean1 if_mean2 if_cross if_sigma].
    repeat split; auto.
    + unfold cross, B. subst n. reflexivity.
    + f_equal. rewrite <- CV. subst n o. fold (entry (no_variance N) 0 0).
      unfold cross, B. cbn. unfold vdot, map2. destruct (getVectorWithout 0 _); cbn; ring.
Qed.

Lemma C27_main x : length x = n ->
  exists c, (forall c', conditional_mean (S n) (no_precision N) (no_mean N) o (fun t => insert o x t) c' <-> c' = c) /\
    findConditionalMean i x = 2 * nth o (no_mean N) 0 - c /\
    (findConditionalMean i x = c <-> vdot (if_cross i) (vsub x (if_mean2 i)) = 0) /\
    if_sigma i = sqrt (/ entry (no_precision N) o o).
Proof.
  intros Lx. destruct made_members as (E1 & E2 & E3 & E4 & E5 & E6 & E7 & E8).
  pose proof (regression _ _ n o Ho HPV Hsym Hpos (no_mean N) x Lm Lx) as RG. fold B in RG. fold cross in RG.
  exists (nth o (no_mean N) 0 + vdot cross (vsub x (getVectorWithout o (no_mean N)))).
  split; [exact RG|].
  assert (EF : findConditionalMean i x = nth o (no_mean N) 0 - vdot cross (vsub x (getVectorWithout o (no_mean N)))).
  { unfold findConditionalMean. rewrite E5, E6, E7. destruct (Nat.ltb_spec 0 (length x)) as [L|L]; [reflexivity|].
    destruct x; [|cbn in L; lia]. unfold vsub, map2. cbn. rewrite vdot_scalar, scalar_nil_r. ring. }
  rewrite EF, E6, E7. split; [ring|]. split; [|exact E8]. split; intros HH; lra.
Qed.

(** C26 for an integrated function built from a normal approximation. *)
Lemma C26_made r : smooth (S n) f g H -> weighted r ->
  smooth n (if_evaluate i r) (if_evaluateDerivative i r) (if_evaluateSecondDerivative i r).
Proof.
  intros Hf Hw. destruct made_members as (E1 & E2 & E3 & E4 & E5 & E6 & E7 & E8).
  apply C26_main; auto.
  - rewrite E1. exact Ho.
  - rewrite E2, E3, E4. exact Hf.
  - rewrite E7. unfold cross. rewrite mvmul_length. apply mat_of_square.
  - rewrite E6. unfold getVectorWithout. apply erase_length; auto.
  - rewrite E8. apply sqrt_lt_R0. apply Rinv_0_lt_compat. exact Hpos.
Qed.
End Made.
