(** The form of a joint normal, restricted to sets of items, and its minima. *)
From Coq Require Import List Reals Lia Lra Arith ZArith Bool.
From Verif Require Import Model.Base Model.Items Model.Vectors Model.MultiNormal Spec.GLMMSpec Spec.MatrixSpec Spec.JointSpec
  Proofs.ItemsLemmas Proofs.GLMMLemmas Proofs.VectorLemmas Proofs.SumLemmas Proofs.NormalMain Proofs.PosDef Proofs.JointLemmas.
Import ListNotations.
Local Open Scope R_scope.

Definition memb (x : Z) (l : list Z) : bool := existsb (Z.eqb x) l.
Lemma memb_In x l : memb x l = true <-> In x l.
Proof.
  unfold memb. rewrite existsb_exists. split.
  - intros (y & Hy & E). apply Z.eqb_eq in E. now subst.
  - intros H. exists x. split; auto. apply Z.eqb_refl.
Qed.
Lemma memb_false x l : memb x l = false <-> ~ In x l.
Proof. rewrite <- memb_In. destruct (memb x l); intuition congruence. Qed.

Lemma lsumR_cons x l f : lsumR (x :: l) f = f x + lsumR l f.
Proof. reflexivity. Qed.
Lemma lsumR_ext l f g : (forall x, In x l -> f x = g x) -> lsumR l f = lsumR l g.
Proof.
  induction l as [|x l IH]; intros H; [reflexivity|]. rewrite !lsumR_cons, (H x), IH; simpl; auto.
  intros y Hy. apply H. now right.
Qed.
Lemma lsumR_zero l : lsumR l (fun _ => 0) = 0.
Proof. induction l as [|x l IH]; [reflexivity|]. rewrite lsumR_cons, IH. ring. Qed.
Lemma lsumR_plus l f g : lsumR l (fun x => f x + g x) = lsumR l f + lsumR l g.
Proof. induction l as [|x l IH]; [unfold lsumR; simpl; ring|]. rewrite !lsumR_cons, IH. ring. Qed.
Lemma lsumR_minus l f g : lsumR l (fun x => f x - g x) = lsumR l f - lsumR l g.
Proof. induction l as [|x l IH]; [unfold lsumR; simpl; ring|]. rewrite !lsumR_cons, IH. ring. Qed.
Lemma lsumR_scal l c f : lsumR l (fun x => c * f x) = c * lsumR l f.
Proof. induction l as [|x l IH]; [unfold lsumR; simpl; ring|]. rewrite !lsumR_cons, IH. ring. Qed.
Lemma lsumR_nth l f : lsumR l f = sumR (length l) (fun i => f (nth i l 0%Z)).
Proof.
  induction l as [|x l IH]; [reflexivity|]. rewrite lsumR_cons, IH. simpl length. rewrite sumR_S. reflexivity.
Qed.
Lemma lsumR_single l x f : NoDup l -> In x l -> lsumR l (fun y => if Z.eqb y x then f y else 0) = f x.
Proof.
  induction 1 as [|y l Hy N IH]; intros H; [destruct H|]. rewrite lsumR_cons. destruct (Z.eqb_spec y x) as [->|E].
  - rewrite (lsumR_ext l _ (fun _ => 0)); [rewrite lsumR_zero; ring|]. intros z Hz.
    destruct (Z.eqb_spec z x); [subst; contradiction|reflexivity].
  - destruct H as [H|H]; [contradiction|]. rewrite IH by auto. ring.
Qed.
Lemma lsumR_sub l C f : NoDup l -> NoDup C -> incl C l ->
  lsumR l (fun x => if memb x C then f x else 0) = lsumR C f.
Proof.
  intros Nl. revert f. induction C as [|c C IH]; intros f NC HC.
  - rewrite (lsumR_ext l _ (fun _ => 0)); [apply lsumR_zero|reflexivity].
  - inversion NC as [|? ? Hc NC']; subst. rewrite lsumR_cons, <- (IH f NC') by (intros x Hx; apply HC; now right).
    rewrite <- (lsumR_single l c f Nl) by (apply HC; now left). rewrite <- lsumR_plus. apply lsumR_ext. intros x _.
    unfold memb at 1. simpl. fold (memb x C). destruct (Z.eqb_spec x c) as [->|E]; simpl.
    + destruct (memb c C) eqn:M; [apply memb_In in M; contradiction|ring].
    + ring.
Qed.

(** * Minima *)
Lemma agree_refl A w : agree A w w. Proof. intros x _. reflexivity. Qed.
Lemma agree_sym A w w' : agree A w w' -> agree A w' w. Proof. intros H x Hx. symmetry. auto. Qed.
Lemma agree_trans A w w' w'' : agree A w w' -> agree A w' w'' -> agree A w w''.
Proof. intros H H' x Hx. rewrite H, H'; auto. Qed.
Lemma agree_incl A A' w w' : incl A' A -> agree A w w' -> agree A' w w'.
Proof. intros H H' x Hx. auto. Qed.

Lemma is_min_ext q q' A m m' : (forall w, q w = q' w) -> (forall w, m w = m' w) -> is_min q A m -> is_min q' A m'.
Proof.
  intros Hq Hm H w. destruct (H w) as [(w' & Aw & E) L]. split.
  - exists w'. rewrite <- Hq, <- Hm. auto.
  - intros w'' A'. rewrite <- Hq, <- Hm. auto.
Qed.
Lemma is_min_unique q A m m' : is_min q A m -> is_min q A m' -> forall w, m w = m' w.
Proof.
  intros H H' w. destruct (H w) as [(w1 & A1 & E1) L1], (H' w) as [(w2 & A2 & E2) L2].
  specialize (L1 w2 A2). specialize (L2 w1 A1). lra.
Qed.
Lemma is_min_trans q C p S b : incl S C -> is_min q C p -> is_min p S b -> is_min q S b.
Proof.
  intros HS H H' w. destruct (H' w) as [(w1 & A1 & E1) L1]. split.
  - destruct (H w1) as [(w2 & A2 & E2) _]. exists w2. split; [|congruence].
    eapply agree_trans; [exact A1|]. eapply agree_incl; eauto.
  - intros w2 A2. specialize (L1 w2 A2). destruct (H w2) as [_ L2]. specialize (L2 w2 (agree_refl C w2)). lra.
Qed.

Definition depends (q : (Z -> R) -> R) (U : Z -> bool) : Prop :=
  forall w w', (forall x, U x = true -> w x = w' x) -> q w = q w'.

Lemma is_min_split qa qb s A B S C ma mb :
  depends qa A -> depends qb B -> (forall w w', agree S w w' -> s w = s w') ->
  incl S C -> (forall x, In x C -> A x = true -> In x S) ->
  (forall x, A x = true -> B x = true -> In x S) ->
  is_min qa S ma -> is_min qb C mb ->
  is_min (fun w => qa w + qb w - s w) C (fun w => ma w + mb w - s w).
Proof.
  intros Da Db Ds HSC HCA HAB Ha Hb w.
  destruct (Ha w) as [(wa & Aa & Ea) La], (Hb w) as [(wb & Ab & Eb) Lb]. split.
  - exists (fun x => if memb x C then w x else if A x then wa x else wb x). split.
    { intros x Hx. apply memb_In in Hx. rewrite Hx. reflexivity. }
    rewrite <- Ea, <- Eb. f_equal; [f_equal|].
    + apply Da. intros x Hx. destruct (memb x C) eqn:M; [|rewrite Hx; reflexivity].
      apply memb_In in M. apply Aa. auto.
    + apply Db. intros x Hx. destruct (memb x C) eqn:M; [apply memb_In in M; apply Ab; auto|].
      destruct (A x) eqn:Ax; [|reflexivity]. apply memb_false in M. exfalso. apply M, HSC. auto.
    + apply Ds. intros x Hx. apply HSC, memb_In in Hx. rewrite Hx. reflexivity.
  - intros w' Aw. specialize (La w' (agree_incl C S w w' HSC Aw)). specialize (Lb w' Aw).
    rewrite (Ds w w' (agree_incl C S w w' HSC Aw)). lra.
Qed.

Lemma is_min_rest qu qr s U R S m b :
  depends qu U -> depends qr R -> (forall w w', agree S w w' -> s w = s w') ->
  (forall x, U x = true -> R x = true -> In x S) ->
  is_min (fun w => qu w + qr w - s w) S m -> is_min qu S b ->
  is_min qr S (fun w => m w - b w + s w).
Proof.
  intros Du Dr Ds HUR Hm Hb w.
  assert (Low : forall w', agree S w w' -> m w - b w + s w <= qr w').
  { intros w' Aw. destruct (Hb w) as [(wb & Ab & Eb) _].
    set (v := fun x => if memb x S then w x else if U x then wb x else w' x).
    assert (Av : agree S w v) by (intros x Hx; apply memb_In in Hx; unfold v; rewrite Hx; reflexivity).
    destruct (Hm w) as [_ L]. specialize (L v Av).
    rewrite (Du v wb) in L.
    2:{ intros x Hx. unfold v. destruct (memb x S) eqn:M; [apply memb_In in M; apply Ab; auto|]. rewrite Hx. reflexivity. }
    rewrite (Dr v w') in L.
    2:{ intros x Hx. unfold v. destruct (memb x S) eqn:M; [apply memb_In in M; apply Aw; auto|].
        destruct (U x) eqn:Ux; [|reflexivity]. exfalso. apply memb_false in M. apply M. auto. }
    rewrite <- (Ds w v Av) in L. lra. }
  split; auto.
  destruct (Hm w) as [(w1 & A1 & E1) _]. exists w1. split; auto.
  destruct (Hb w) as [_ Lb]. specialize (Lb w1 A1). specialize (Low w1 A1). rewrite <- (Ds w w1 A1) in E1. lra.
Qed.

(** * The form on a set of items *)
Section Form.
Variables (scopes : list (list Z)) (items : list Z) (Q : Z -> Z -> R) (mu : Z -> R).
Hypothesis Nd : NoDup items.
Hypothesis J : joint_precision scopes items Q.

Definition uform (U : Z -> bool) (w : Z -> R) : R :=
  lsumR items (fun x => lsumR items (fun y => if U x && U y then w x * Q x y * w y else 0)).

Lemma uform_ext U U' w w' : (forall x, In x items -> U x = U' x) ->
  (forall x, In x items -> U x = true -> w x = w' x) -> uform U w = uform U' w'.
Proof.
  intros HU Hw. unfold uform. apply lsumR_ext. intros x Hx. apply lsumR_ext. intros y Hy.
  rewrite <- (HU x Hx), <- (HU y Hy). destruct (U x) eqn:Ux, (U y) eqn:Uy; simpl; auto.
  rewrite (Hw x Hx Ux), (Hw y Hy Uy). reflexivity.
Qed.
Lemma uform_depends U : depends (uform U) U.
Proof. intros w w' H. apply uform_ext; auto. Qed.
Lemma uform_all w : uform (fun _ => true) w = joint_form items Q w.
Proof. reflexivity. Qed.
Lemma uform_positive U w : (exists x, In x items /\ U x = true /\ w x <> 0) -> 0 < uform U w.
Proof.
  intros (x & Hx & Ux & Wx). set (v := fun y => if U y then w y else 0).
  replace (uform U w) with (joint_form items Q v).
  - apply (jp_pos _ _ _ J). exists x. split; auto. unfold v. rewrite Ux. exact Wx.
  - unfold joint_form, uform. apply lsumR_ext. intros a _. apply lsumR_ext. intros c _. unfold v.
    destruct (U a), (U c); simpl; ring.
Qed.
Lemma uform_split U A B S : (forall x, In x items -> U x = A x || B x) -> (forall x, In x items -> S x = A x && B x) ->
  (forall x y, In x items -> In y items -> A x = true -> S x = false -> B y = true -> S y = false -> Q x y = 0) ->
  forall w, uform U w = uform A w + uform B w - uform S w.
Proof.
  intros HU HS H0 w. unfold uform. rewrite <- lsumR_plus, <- lsumR_minus. apply lsumR_ext. intros x Hx.
  rewrite <- lsumR_plus, <- lsumR_minus. apply lsumR_ext. intros y Hy.
  pose proof (H0 x y Hx Hy) as H1. pose proof (H0 y x Hy Hx) as H2.
  rewrite (jp_sym _ _ _ J y x Hy Hx) in H2.
  rewrite (HS x Hx), (HS y Hy) in *. rewrite (HU x Hx), (HU y Hy).
  destruct (A x) eqn:Ax, (B x) eqn:Bx, (A y) eqn:Ay, (B y) eqn:By; simpl in *; try ring;
  try (rewrite H1 by auto; ring); try (rewrite H2 by auto; ring).
Qed.
Lemma uform_agree S w w' : agree S w w' -> uform (fun x => memb x S) w = uform (fun x => memb x S) w'.
Proof. intros H. apply uform_ext; auto. intros x _ M. apply memb_In in M. auto. Qed.
Lemma uform_list C w : NoDup C -> incl C items ->
  uform (fun x => memb x C) w
  = bil (length C) (fun i j => Q (nth i C 0%Z) (nth j C 0%Z)) (fun i => w (nth i C 0%Z)) (fun i => w (nth i C 0%Z)).
Proof.
  intros NC HC. unfold uform, bil.
  rewrite (lsumR_ext items _ (fun x => if memb x C then lsumR C (fun y => w x * Q x y * w y) else 0)).
  - rewrite lsumR_sub by auto. rewrite lsumR_nth. apply sumR_ext. intros i _. rewrite lsumR_nth. reflexivity.
  - intros x _. destruct (memb x C); simpl; [apply lsumR_sub; auto|apply lsumR_zero].
Qed.
Lemma is_min_positive U C p : incl C items -> (forall x, In x C -> U x = true) ->
  is_min (uform U) C p -> positive_on C p.
Proof.
  intros HC HU H w (x & Hx & Wx). destruct (H w) as [(w' & Aw & E) _]. rewrite <- E. apply uform_positive.
  exists x. split; auto. split; auto. rewrite <- (Aw x Hx). exact Wx.
Qed.

(** The normal with the entries of Q on C. *)
Definition sub_matrix (C : list Z) : rmat := map (fun i => map (fun j => Q i j) C) C.
Lemma sub_matrix_entry C i j : (i < length C)%nat -> (j < length C)%nat ->
  entry (sub_matrix C) i j = Q (nth i C 0%Z) (nth j C 0%Z).
Proof.
  intros Hi Hj. unfold entry, sub_matrix. rewrite (nth_map_lt _ _ _ _ 0%Z) by auto.
  rewrite (nth_map_lt _ _ _ _ 0%Z) by auto. reflexivity.
Qed.
Lemma sub_matrix_square C : square (length C) (sub_matrix C).
Proof.
  split; [apply map_length|]. intros i Hi. unfold sub_matrix. rewrite (nth_map_lt _ _ _ _ 0%Z) by auto. apply map_length.
Qed.
Lemma sub_matrix_sym C : incl C items -> sym (length C) (entry (sub_matrix C)).
Proof.
  intros HC i j Hi Hj. rewrite !sub_matrix_entry by auto. apply (jp_sym _ _ _ J); apply HC, nth_In; auto.
Qed.
Lemma sub_matrix_form C w : NoDup C -> incl C items ->
  bil (length C) (entry (sub_matrix C)) (fun i => w (nth i C 0%Z)) (fun i => w (nth i C 0%Z)) = uform (fun x => memb x C) w.
Proof. intros NC HC. rewrite uform_list by auto. apply bil_ext; auto. intros. apply sub_matrix_entry; auto. Qed.
Lemma sub_matrix_pd C : NoDup C -> incl C items -> pd (length C) (entry (sub_matrix C)).
Proof.
  intros NC HC. apply positive_pd; auto. intros w (x & Hx & Wx). rewrite sub_matrix_form by auto.
  apply uform_positive. exists x. split; auto. split; auto. apply memb_In. exact Hx.
Qed.

Variables (inverse : rmat -> rmat) (determinant : rmat -> R).
Hypothesis Hinv : forall d A, inverts inverse d A.

Lemma given_good C : NoDup C -> incl C items ->
  let n := normal_given inverse determinant (map mu C) (sub_matrix C) in
  good determinant mu C n /\ forall w, frm C n w = uform (fun x => memb x C) w.
Proof.
  intros NC HC n. split.
  - pose proof (sub_matrix_square C) as Hq. pose proof (sub_matrix_sym C HC) as Hs. pose proof (sub_matrix_pd C NC HC) as Hp.
    constructor; [reflexivity|exact Hq|exact Hs|exact Hp| |]; [exact (inverse_ok inverse Hinv (length C) _ Hq Hs Hp)|].
    rewrite <- (map_length mu C). reflexivity.
  - intros w. apply sub_matrix_form; auto.
Qed.

(** A normal on C whose form is the minimum of the joint form is the marginal. *)
Lemma matrix_ext d (A B : rmat) : square d A -> square d B ->
  (forall i j, (i < d)%nat -> (j < d)%nat -> entry A i j = entry B i j) -> A = B.
Proof.
  intros [L R] [L' R'] E. apply (nth_ext A B [] []); [congruence|]. intros i Hi.
  apply (nth_ext _ _ 0 0); [rewrite R, R' by lia; reflexivity|].
  intros j Hj. rewrite R in Hj by lia. apply E; lia.
Qed.

Lemma variance_inverse Sigma : joint_variance items Q Sigma ->
  are_inverse (length items) (sub_matrix items) (mat_of (length items) (fun i j => Sigma (nth i items 0%Z) (nth j items 0%Z))).
Proof.
  intros H. apply sym_inverse; [apply sub_matrix_square|apply sub_matrix_sym, incl_refl|].
  intros i k Hi Hk. pose proof (H (nth i items 0%Z) (nth k items 0%Z) (nth_In _ _ Hi) (nth_In _ _ Hk)) as E.
  rewrite lsumR_nth in E.
  rewrite (sumR_ext _ _ (fun j => Q (nth i items 0%Z) (nth j items 0%Z) * Sigma (nth j items 0%Z) (nth k items 0%Z))).
  - rewrite E. unfold unit_entry. destruct (Z.eqb_spec (nth i items 0%Z) (nth k items 0%Z)) as [X|X], (Nat.eqb_spec i k) as [Y|Y]; auto.
    + exfalso. apply Y. apply (proj1 (NoDup_nth items 0%Z) Nd); auto.
    + exfalso. apply X. subst. reflexivity.
  - intros j Hj. rewrite sub_matrix_entry by auto. reflexivity.
Qed.

Lemma variance_exists : exists Sigma, joint_variance items Q Sigma.
Proof.
  destruct (pd_inverse (length items) (sub_matrix items)) as [B HB].
  - apply sub_matrix_square.
  - apply sub_matrix_sym, incl_refl.
  - apply sub_matrix_pd; auto. apply incl_refl.
  - exists (fun x z => entry B (findRelativeItem x items) (findRelativeItem z items)). intros x z Hx Hz.
    destruct (rel_pos items items (incl_refl items) x Hx) as [Lx Ex]. destruct (rel_pos items items (incl_refl items) z Hz) as [Lz Ez].
    rewrite lsumR_nth. destruct HB as (_ & _ & H). destruct (H _ _ Lx Lz) as [E _]. unfold row_col in E.
    etransitivity; [|etransitivity; [exact E|]].
    + apply sumR_ext. intros k Hk. rewrite sub_matrix_entry by auto. rewrite Ex. f_equal. f_equal.
      destruct (rel_pos items items (incl_refl items) (nth k items 0%Z) (nth_In _ _ Hk)) as [L' E'].
      apply (proj1 (NoDup_nth items 0%Z) Nd); auto.
    + unfold unit_entry. destruct (Z.eqb_spec x z) as [X|X], (Nat.eqb_spec (findRelativeItem x items) (findRelativeItem z items)) as [Y|Y]; auto.
      * subst. contradiction.
      * exfalso. apply X. rewrite <- Ex, <- Ez, Y. reflexivity.
Qed.

Lemma minimum_marginal Sigma C n : joint_variance items Q Sigma -> NoDup C -> incl C items ->
  good determinant mu C n -> is_min (uform (fun _ => true)) C (frm C n) -> marginal_normal mu Sigma C n.
Proof.
  intros HS NC HC G Hm. split; [apply G|]. split; [apply G|].
  set (V := mat_of (length items) (fun i j => Sigma (nth i items 0%Z) (nth j items 0%Z))).
  set (n0 := mkNormal (map mu items) (sub_matrix items) V
    (- INR (length items) * logSqrtTwoPi + 1 / 2 * ln (determinant (sub_matrix items)))).
  assert (G0 : good determinant mu items n0).
  { constructor; simpl; auto using sub_matrix_square, incl_refl, sub_matrix_sym, sub_matrix_pd.
    apply variance_inverse, HS. }
  pose proof (marginal_good inverse determinant mu Hinv items C n0 Nd NC HC G0) as M. cbv zeta in M.
  set (r := computeMarginal inverse determinant n0 (findRelativeItems C items)) in *.
  destruct M as [Gr Mr].
  assert (Mr' : is_min (uform (fun _ => true)) C (frm C r)).
  { eapply is_min_ext; [|reflexivity|exact Mr]. intros w. unfold frm. simpl.
    rewrite sub_matrix_form by (auto using incl_refl). apply uform_ext; auto.
    intros x Hx. apply memb_In. exact Hx. }
  assert (EP : no_precision n = no_precision r).
  { apply (matrix_ext (length C)); [apply G|apply Gr|].
    apply form_determines; [apply G|apply Gr|]. intros z. destruct (assign_exists C z NC) as [w Hw].
    rewrite <- (bil_ext (length C) _ (entry (no_precision n)) (fun i => w (nth i C 0%Z)) z (fun i => w (nth i C 0%Z)) z) by auto.
    rewrite <- (bil_ext (length C) _ (entry (no_precision r)) (fun i => w (nth i C 0%Z)) z (fun i => w (nth i C 0%Z)) z) by auto.
    exact (is_min_unique _ _ _ _ Hm Mr' w). }
  assert (EV : no_variance n = no_variance r).
  { apply (inverse_unique (length C) (no_precision n)); [apply G|]. rewrite EP. apply Gr. }
  intros i j Hi Hj. rewrite EV.
  change (no_variance r) with (msubset V (findRelativeItems C items)).
  assert (L : length (findRelativeItems C items) = length C) by apply rel_length.
  rewrite entry_msubset by lia. unfold V.
  rewrite mat_of_entry by (apply (rel_lt items C HC), nth_In; lia).
  rewrite !(rel_at items C HC) by auto. reflexivity.
Qed.
End Form.
