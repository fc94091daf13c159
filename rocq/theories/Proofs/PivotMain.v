(** The pivots of Gaussian elimination in the order of the cluster graph. *)
From Coq Require Import List Reals Lia Lra Arith ZArith Bool Permutation.
From Verif Require Import Model.Base Spec.GLMMSpec Spec.MatrixSpec Spec.LaplaceSpec Spec.GraphSpec Spec.ElimSpec Spec.JointSpec
  Proofs.GLMMLemmas Proofs.VectorLemmas Proofs.SumLemmas Proofs.ElimLemmas Proofs.NormalMain Proofs.JointForms Proofs.JointBuild Proofs.LaplaceMain.
Import ListNotations.
Local Open Scope R_scope.

Definition zschur (S : Z -> Z -> R) (e x y : Z) : R := S x y - S x e * S e y / S e e.
Fixpoint pivots (o : list Z) (S : Z -> Z -> R) : list R :=
  match o with [] => [] | e :: o' => S e e :: pivots o' (zschur S e) end.
Fixpoint zdet (o : list Z) (S : Z -> Z -> R) : R :=
  match o with [] => 1 | e :: o' => S e e * zdet o' (zschur S e) end.

Lemma zdet_ext o : forall S S', (forall x y, In x o -> In y o -> S x y = S' x y) -> zdet o S = zdet o S'.
Proof.
  induction o as [|e o IH]; intros S S' H; [reflexivity|]. cbn [zdet]. rewrite (H e e) by (now left). f_equal.
  apply IH. intros x y Hx Hy. unfold zschur. rewrite !H by (simpl; auto). reflexivity.
Qed.
Lemma zdet_det o : forall S, zdet o S = det (length o) (fun i j => S (nth i o 0%Z) (nth j o 0%Z)).
Proof. induction o as [|e o IH]; intros S; [reflexivity|]. cbn [zdet length det nth]. f_equal. apply IH. Qed.
Lemma pivots_app o o' : forall S, pivots (o ++ o') S = pivots o S ++ pivots o' (fold_left zschur o S).
Proof. induction o as [|e o IH]; intros S; [reflexivity|]. cbn [app pivots fold_left]. f_equal. apply IH. Qed.
Lemma pivots_length o : forall S, length (pivots o S) = length o.
Proof. induction o as [|e o IH]; intros S; [reflexivity|]. cbn. f_equal. apply IH. Qed.

(** Symmetric and positive definite. *)
Record posdef (l : list Z) (S : Z -> Z -> R) : Prop := {
  po_sym : forall x y, In x l -> In y l -> S x y = S y x;
  po_pos : forall w, (exists x, In x l /\ w x <> 0) -> 0 < joint_form l S w
}.
Lemma posdef_same l l' S : NoDup l -> NoDup l' -> (forall x, In x l <-> In x l') -> posdef l S -> posdef l' S.
Proof.
  intros N N' H [A B]. constructor.
  - intros x y Hx Hy. apply A; apply H; auto.
  - intros w (x & Hx & Wx). rewrite <- (joint_form_same l l') by auto. apply B. exists x. split; auto. apply H, Hx.
Qed.
Lemma joint_form_cons e l S w : ~ In e l -> (forall x, In x l -> S x e = S e x) ->
  joint_form (e :: l) S w = S e e * w e * w e + 2 * w e * lsumR l (fun y => S e y * w y) + joint_form l S w.
Proof.
  intros Hn Hs. unfold joint_form. rewrite lsumR_cons, lsumR_cons.
  rewrite (lsumR_ext l (fun y => w e * S e y * w y) (fun y => w e * (S e y * w y))) by (intros; ring).
  rewrite lsumR_scal.
  rewrite (lsumR_ext l (fun x => lsumR (e :: l) _) (fun x => w e * (S e x * w x) + lsumR l (fun y => w x * S x y * w y))).
  - rewrite lsumR_plus, lsumR_scal. ring.
  - intros x Hx. rewrite lsumR_cons, (Hs x Hx). ring.
Qed.
Lemma posdef_pivot l S e : NoDup l -> posdef l S -> In e l -> 0 < S e e.
Proof.
  intros N P He. pose proof (po_pos _ _ P (fun x => if Z.eqb x e then 1 else 0)) as H.
  assert (E : joint_form l S (fun x => if Z.eqb x e then 1 else 0) = S e e).
  { unfold joint_form. rewrite (lsumR_ext l _ (fun x => if Z.eqb x e then S x e else 0)).
    - apply (lsumR_single l e (fun x => S x e) N He).
    - intros x Hx. destruct (Z.eqb_spec x e) as [->|].
      + rewrite (lsumR_ext l _ (fun y => if Z.eqb y e then S e y else 0)); [apply (lsumR_single l e (fun y => S e y) N He)|].
        intros y _. destruct (Z.eqb y e); ring.
      + transitivity (lsumR l (fun _ => 0)); [|apply lsumR_zero]. apply lsumR_ext. intros; ring. }
  rewrite E in H. apply H. exists e. split; auto. rewrite Z.eqb_refl. lra.
Qed.
Lemma posdef_schur e l S : NoDup (e :: l) -> posdef (e :: l) S -> posdef l (zschur S e).
Proof.
  intros N P. pose proof (posdef_pivot _ S e N P (or_introl eq_refl)) as Hp. inversion N as [|? ? Hn Nl]; subst. constructor.
  - intros x y Hx Hy. unfold zschur. rewrite (po_sym _ _ P x y), (po_sym _ _ P x e), (po_sym _ _ P e y) by (simpl; auto).
    unfold Rdiv. ring.
  - intros w (x & Hx & Wx). set (s := lsumR l (fun y => S e y * w y)).
    set (w' := fun y => if Z.eqb y e then - s / S e e else w y).
    assert (W : forall y, In y l -> w' y = w y).
    { intros y Hy. unfold w'. destruct (Z.eqb_spec y e) as [->|]; [contradiction|reflexivity]. }
    assert (We : w' e = - s / S e e) by (unfold w'; rewrite Z.eqb_refl; reflexivity).
    assert (E : joint_form l (zschur S e) w = joint_form (e :: l) S w').
    { rewrite joint_form_cons by (auto; intros y Hy; apply (po_sym _ _ P); simpl; auto).
      rewrite (lsumR_ext l (fun y => S e y * w' y) (fun y => S e y * w y)) by (intros y Hy; rewrite W; auto). fold s.
      rewrite We. transitivity (joint_form l S w - s * s / S e e).
      - unfold joint_form. rewrite (lsumR_ext l _ (fun a => lsumR l (fun y => w a * S a y * w y) - s / S e e * (S e a * w a))).
        + rewrite lsumR_minus, lsumR_scal. fold s. unfold Rdiv. ring.
        + intros a Ha. rewrite (lsumR_ext l _ (fun y => w a * S a y * w y - (w a * S a e / S e e) * (S e y * w y))).
          * rewrite lsumR_minus, lsumR_scal. fold s. rewrite (po_sym _ _ P a e) by (simpl; auto). unfold Rdiv. ring.
          * intros y _. unfold zschur, Rdiv. ring.
      - assert (Ej : joint_form l S w' = joint_form l S w).
        { unfold joint_form. apply lsumR_ext. intros a Ha. apply lsumR_ext. intros b Hb. rewrite !W by auto. reflexivity. }
        rewrite Ej. field. lra. }
    rewrite E. apply (po_pos _ _ P). exists x. split; [now right|]. rewrite W; auto.
Qed.
Lemma zdet_pos o : forall S, NoDup o -> posdef o S -> 0 < zdet o S.
Proof.
  induction o as [|e o IH]; intros S N P; cbn [zdet]; [lra|]. apply Rmult_lt_0_compat.
  - apply (posdef_pivot _ S e N P). now left.
  - inversion N; subst. apply IH; auto. apply posdef_schur; auto.
Qed.
Lemma pivots_pos o : forall S, NoDup o -> posdef o S -> forall p, In p (pivots o S) -> 0 < p.
Proof.
  induction o as [|e o IH]; intros S N P p; cbn [pivots]; [intros []|]. intros [<-|H].
  - apply (posdef_pivot _ S e N P). now left.
  - inversion N; subst. apply (IH (zschur S e)); auto. apply posdef_schur; auto.
Qed.
Lemma ln_zdet o : forall S, NoDup o -> posdef o S -> ln (zdet o S) = fold_right Rplus 0 (map ln (pivots o S)).
Proof.
  induction o as [|e o IH]; intros S N P; cbn [zdet pivots map fold_right]; [apply ln_1|].
  inversion N; subst. rewrite ln_mult.
  - f_equal. apply IH; auto. apply posdef_schur; auto.
  - apply (posdef_pivot _ S e N P). now left.
  - apply zdet_pos; auto. apply posdef_schur; auto.
Qed.
Lemma zdet_perm o o' : Permutation o o' -> forall S, NoDup o -> posdef o S -> zdet o S = zdet o' S.
Proof.
  induction 1 as [|e l l' Hp IH|x y l|l1 l2 l3 H1 IH1 H2 IH2]; intros S N P; auto.
  - cbn [zdet]. f_equal. inversion N; subst. apply IH; auto. apply posdef_schur; auto.
  - cbn [zdet].
    assert (Nxy : x <> y) by (inversion N as [|? ? H _]; subst; intros ->; apply H; now left).
    assert (N' : NoDup (x :: y :: l)) by (apply (Permutation_NoDup (perm_swap x y l)); exact N).
    assert (P' : posdef (x :: y :: l) S) by (apply (posdef_same (y :: x :: l)); auto; intros z; simpl; tauto).
    pose proof (posdef_pivot _ S x N P ltac:(simpl; auto)) as Px.
    pose proof (posdef_pivot _ S y N P ltac:(simpl; auto)) as Py.
    pose proof (posdef_schur _ _ _ N P) as Q1. pose proof (posdef_schur _ _ _ N' P') as Q2.
    pose proof (posdef_pivot _ _ x (proj2 (proj1 (NoDup_cons_iff _ _) N)) Q1 ltac:(simpl; auto)) as Pyx.
    pose proof (posdef_pivot _ _ y (proj2 (proj1 (NoDup_cons_iff _ _) N')) Q2 ltac:(simpl; auto)) as Pxy.
    unfold zschur in Pyx, Pxy.
    assert (D : S x x * S y y - S x y * S y x <> 0).
    { intros D. assert (E : S y y - S y x * S x y / S x x = (S x x * S y y - S x y * S y x) / S x x) by (field; lra).
      rewrite E, D in Pxy. unfold Rdiv in Pxy. lra. }
    rewrite (zdet_ext l (zschur (zschur S y) x) (zschur (zschur S x) y)).
    + rewrite <- !Rmult_assoc. apply (f_equal2 Rmult); [|reflexivity]. unfold zschur. field. split; lra.
    + intros u v _ _. unfold zschur. field. repeat split; try lra; intros E; apply D; lra.
  - rewrite (IH1 S N P). apply IH2.
    + apply (Permutation_NoDup H1 N).
    + apply (posdef_same l1); auto; [apply (Permutation_NoDup H1 N)|]. intros z. split; apply Permutation_in; auto. apply Permutation_sym; auto.
Qed.

(** With the inverse. *)
Section Inverse.
Variable Sigma : Z -> Z -> R.
Lemma variance_schur e l S : NoDup (e :: l) -> posdef (e :: l) S -> joint_variance (e :: l) S Sigma -> joint_variance l (zschur S e) Sigma.
Proof.
  intros N P V x z Hx Hz. pose proof (posdef_pivot _ S e N P (or_introl eq_refl)) as Hp. inversion N as [|? ? Hn Nl]; subst.
  pose proof (V x z ltac:(simpl; auto) ltac:(simpl; auto)) as V1. pose proof (V e z ltac:(simpl; auto) ltac:(simpl; auto)) as V2.
  rewrite lsumR_cons in V1, V2. destruct (Z.eqb_spec e z) as [->|_]; [contradiction|].
  rewrite (lsumR_ext l _ (fun y => S x y * Sigma y z - S x e / S e e * (S e y * Sigma y z))) by (intros; unfold zschur, Rdiv; ring).
  rewrite lsumR_minus, lsumR_scal. rewrite <- V1.
  replace (lsumR l (fun y => S e y * Sigma y z)) with (- (S e e * Sigma e z)) by lra. field. lra.
Qed.
(** If the row of e has no entries outside C, then it is the row of the precision
    matrix of C. *)
Lemma pivot_row l S C P V k : NoDup l -> NoDup C -> incl C l -> joint_variance l S Sigma -> (k < length C)%nat ->
  (forall y, In y l -> S (nth k C 0%Z) y <> 0 -> In y C) -> are_inverse (length C) P V ->
  (forall i j, (i < length C)%nat -> (j < length C)%nat -> entry V i j = Sigma (nth i C 0%Z) (nth j C 0%Z)) ->
  entry P k k = S (nth k C 0%Z) (nth k C 0%Z).
Proof.
  intros Nl NC HC HV Hk Hs (_ & _ & HI) EV. set (e := nth k C 0%Z) in *. set (d := length C) in *.
  assert (Ie : In e C) by (apply nth_In; auto).
  assert (R : forall j, (j < d)%nat -> sumR d (fun b => S e (nth b C 0%Z) * entry V b j) = unit_entry k j).
  { intros j Hj. transitivity (lsumR C (fun y => S e y * Sigma y (nth j C 0%Z))).
    - rewrite lsumR_nth. apply sumR_ext. intros b Hb. rewrite EV by auto. reflexivity.
    - rewrite <- (lsumR_sub l C) by auto. transitivity (lsumR l (fun y => S e y * Sigma y (nth j C 0%Z))).
      + apply lsumR_ext. intros y Hy. destruct (memb y C) eqn:E; [reflexivity|]. apply memb_false in E.
        destruct (Req_dec (S e y) 0) as [->|Ne]; [ring|]. destruct E. apply Hs; auto.
      + rewrite HV; [|apply HC, Ie|apply HC, nth_In; auto]. unfold unit_entry.
        destruct (Z.eqb_spec e (nth j C 0%Z)) as [E|E], (Nat.eqb_spec k j) as [E'|E']; auto.
        * exfalso. apply E'. apply (proj1 (NoDup_nth C 0%Z) NC); auto.
        * exfalso. apply E. subst. reflexivity. }
  symmetry. transitivity (sumR d (fun b => S e (nth b C 0%Z) * unit_entry b k)); [symmetry; rewrite sumR_delta_r; auto|].
  transitivity (sumR d (fun b => sumR d (fun j => (S e (nth b C 0%Z) * entry V b j) * entry P j k))).
  { apply sumR_ext. intros b Hb. destruct (HI b k Hb Hk) as [_ <-]. unfold row_col. rewrite <- sumR_scal. apply sumR_ext. intros; ring. }
  rewrite sumR_swap. transitivity (sumR d (fun j => unit_entry k j * entry P j k)).
  - apply sumR_ext. intros j Hj. rewrite <- (R j Hj). rewrite <- (sumR_scal_r d (entry P j k) (fun b => S e (nth b C 0%Z) * entry V b j)). reflexivity.
  - apply (sumR_delta d k (fun j => entry P j k)); auto.
Qed.

(** One after the other, in the order of elimination. *)
Record stage (l : list Z) (S : Z -> Z -> R) : Prop := {
  sg_nodup : NoDup l; sg_posdef : posdef l S; sg_var : joint_variance l S Sigma
}.
Lemma stage_same l l' S : NoDup l' -> (forall x, In x l <-> In x l') -> stage l S -> stage l' S.
Proof.
  intros N' H [A B C]. constructor; auto.
  - apply (posdef_same l l'); auto.
  - apply (joint_variance_same l l'); auto.
Qed.
Lemma stage_next l l' S e : In e l -> NoDup l' -> (forall x, In x l' <-> In x l /\ x <> e) -> stage l S -> stage l' (zschur S e).
Proof.
  intros He N' H G. assert (Ne : NoDup (e :: l')) by (constructor; auto; intros Hi; apply H in Hi; tauto).
  assert (G' : stage (e :: l') S).
  { apply (stage_same l); auto. intros x. simpl. rewrite H. destruct (Z.eq_dec e x) as [->|]; intuition. }
  constructor; auto.
  - apply posdef_schur; auto. apply G'.
  - apply variance_schur; auto; apply G'.
Qed.

Lemma elim_pivots a es cs ss : elim a es cs ss -> wf a -> forall S, stage (a_items a) S ->
  (forall x y, In x (a_items a) -> In y (a_items a) -> x <> y -> S x y <> 0 -> a_adj a x y) ->
  (forall k e c P V i, nth_error es k = Some e -> nth_error cs k = Some c -> NoDup c -> are_inverse (length c) P V ->
    (forall i j, (i < length c)%nat -> (j < length c)%nat -> entry V i j = Sigma (nth i c 0%Z) (nth j c 0%Z)) ->
    (i < length c)%nat -> nth i c 0%Z = e -> entry P i i = nth k (pivots es S) 0) /\
  forall c, nth_error cs (length ss) = Some c -> NoDup c -> stage c (fold_left zschur es S).
Proof.
  induction 1 as [a Hc|a e sep cl es cs ss Hnc Hmin Hnb Hsort Hcl Hel IH]; intros Hwf S G Ad.
  - split; [intros [|k]; discriminate|]. intros c Hc' _. injection Hc' as <-. exact G.
  - destruct Hmin as (l1 & l2 & n & Ei & _).
    assert (He : In e (a_items a)) by (rewrite Ei; apply in_or_app; right; now left).
    destruct Hnb as [Nsep Hnb].
    assert (G' : stage (a_items (a_remove (a_connect a sep) e)) (zschur S e)).
    { apply (stage_next (a_items a)); auto.
      - apply NoDup_filter. apply G.
      - intros x. exact (a_remove_In (a_connect a sep) e x). }
    assert (Ad' : forall x y, In x (a_items (a_remove (a_connect a sep) e)) -> In y (a_items (a_remove (a_connect a sep) e)) ->
      x <> y -> zschur S e x y <> 0 -> a_adj (a_remove (a_connect a sep) e) x y).
    { intros x y Hx Hy Hne Hz. apply a_remove_In in Hx, Hy. cbn [a_items a_connect] in Hx, Hy. cbn.
      destruct (Req_dec (S x y) 0) as [E|E]; [|left; apply Ad; tauto].
      right. unfold zschur in Hz. destruct Hwf as [Ws Wi].
      assert (S x e <> 0) by (intros E1; apply Hz; rewrite E, E1; unfold Rdiv; ring).
      assert (S e y <> 0) by (intros E1; apply Hz; rewrite E, E1; unfold Rdiv; ring).
      split; auto. split; apply Hnb; (split; [tauto|]).
      - apply Ws. apply Ad; tauto.
      - apply Ad; tauto || auto. intros ->; tauto. }
    destruct (IH (wf_elim_step a e sep Hwf (conj Nsep Hnb)) (zschur S e) G' Ad') as [I1 I2]. split.
    + intros [|k] x c P V i Hx Hc Nc HI HV Hi Ei'; cbn [nth_error] in Hx, Hc.
      * injection Hx as <-. injection Hc as <-. cbn [pivots nth]. subst e.
        apply (pivot_row (a_items a) S cl P V i); auto; [apply G| |apply G|].
        -- intros y Hy. apply Hcl in Hy. destruct Hy as [->|Hy]; auto. apply Hnb in Hy. tauto.
        -- intros y Hy Hne. apply Hcl. destruct (Z.eq_dec y (nth i cl 0%Z)) as [|Hn]; [now left|right]. apply Hnb. split; auto.
      * cbn [pivots nth]. apply (I1 k x c P V i); auto.
    + intros c Hc Nc. cbn [fold_left]. apply I2; auto.
Qed.
End Inverse.
