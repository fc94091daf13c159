(** Normals on lists of items: products, quotients and marginals as forms. *)
From Coq Require Import List Reals Lia Lra Arith ZArith Bool.
From Verif Require Import Model.Base Model.Items Model.Vectors Model.MultiNormal Spec.GLMMSpec Spec.MatrixSpec Spec.JointSpec
  Proofs.ItemsLemmas Proofs.GLMMLemmas Proofs.VectorLemmas Proofs.SumLemmas Proofs.NormalMain Proofs.PosDef.
Import ListNotations.
Local Open Scope R_scope.

(** ** Relative positions *)
Section Rel.
Variables (C S : list Z).
Hypothesis NC : NoDup C.
Hypothesis NS : NoDup S.
Hypothesis HS : incl S C.
Notation rel := (findRelativeItems S C).

Lemma rel_length : length rel = length S.
Proof. apply map_length. Qed.
Lemma rel_pos x : In x S -> (findRelativeItem x C < length C)%nat /\ nth (findRelativeItem x C) C 0%Z = x.
Proof.
  intros H. pose proof (findRelativeItem_spec x C (HS x H)) as E. split.
  - apply nth_error_Some. congruence.
  - apply nth_error_nth. exact E.
Qed.
Lemma rel_nth a : (a < length S)%nat -> nth a rel 0%nat = findRelativeItem (nth a S 0%Z) C.
Proof. intros Ha. unfold findRelativeItems. rewrite (nth_map_lt _ _ _ _ 0%Z) by auto. reflexivity. Qed.
Lemma rel_at a : (a < length S)%nat -> nth (nth a rel 0%nat) C 0%Z = nth a S 0%Z.
Proof. intros Ha. rewrite rel_nth by auto. apply rel_pos. apply nth_In; auto. Qed.
Lemma rel_lt i : In i rel -> (i < length C)%nat.
Proof. intros H. apply in_map_iff in H. destruct H as (x & <- & Hx). apply rel_pos; auto. Qed.
Lemma rel_nd : NoDup rel.
Proof.
  clear NC. assert (Inj : forall x y, In x S -> In y S -> findRelativeItem x C = findRelativeItem y C -> x = y).
  { intros x y Hx Hy E. rewrite <- (proj2 (rel_pos x Hx)), E. apply rel_pos; auto. }
  unfold findRelativeItems. clear HS. induction NS as [|x l Hx N IH]; [constructor|]. simpl. constructor.
  - intros Hin. apply in_map_iff in Hin. destruct Hin as (y & E & Hy). apply Hx.
    rewrite <- (Inj y x); simpl; auto.
  - apply IH; auto. intros a b Ha Hb. apply Inj; simpl; auto.
Qed.
End Rel.

(** An assignment with given values on a list of distinct items. *)
Lemma assign_exists C (z : nat -> R) : NoDup C -> exists w : Z -> R,
  forall i, (i < length C)%nat -> w (nth i C 0%Z) = z i.
Proof.
  intros N. exists (fun x => z (findRelativeItem x C)). intros i Hi. f_equal.
  pose proof (rel_pos C C (incl_refl C) (nth i C 0%Z) (nth_In C 0%Z Hi)) as [L E].
  apply (proj1 (NoDup_nth C 0%Z) N); auto.
Qed.

Section Normals.
Variables (inverse : rmat -> rmat) (determinant : rmat -> R) (mu : Z -> R).
Hypothesis Hinv : forall d A, inverts inverse d A.

Definition frm (C : list Z) (n : mnormal) (w : Z -> R) : R :=
  bil (length C) (entry (no_precision n)) (fun i => w (nth i C 0%Z)) (fun i => w (nth i C 0%Z)).

Record good (C : list Z) (n : mnormal) : Prop := {
  g_mean : no_mean n = map mu C;
  g_sq : square (length C) (no_precision n);
  g_sym : sym (length C) (entry (no_precision n));
  g_pd : pd (length C) (entry (no_precision n));
  g_inv : are_inverse (length C) (no_precision n) (no_variance n);
  g_norm : no_normalizer n = - INR (length C) * logSqrtTwoPi + 1 / 2 * ln (determinant (no_precision n))
}.

(** Positive on the items of C. *)
Definition positive_on (C : list Z) (f : (Z -> R) -> R) : Prop :=
  forall w, (exists x, In x C /\ w x <> 0) -> 0 < f w.

Lemma frm_local C n w w' : (forall x, In x C -> w x = w' x) -> frm C n w = frm C n w'.
Proof. intros H. apply bil_ext; auto; intros i Hi; apply H, nth_In; auto. Qed.
Lemma frm_positive C n : good C n -> positive_on C (frm C n).
Proof.
  intros H w (x & Hx & Wx). apply (g_pd _ _ H). destruct (In_nth C x 0%Z Hx) as (i & Hi & E).
  exists i. split; auto. rewrite E. auto.
Qed.
Lemma frm_nonneg C n w : good C n -> 0 <= frm C n w.
Proof. intros H. apply pd_nonneg, (g_pd _ _ H). Qed.
Lemma positive_pd C A : NoDup C ->
  positive_on C (fun w => bil (length C) A (fun i => w (nth i C 0%Z)) (fun i => w (nth i C 0%Z))) -> pd (length C) A.
Proof.
  intros N H z (i & Hi & Zi). destruct (assign_exists C z N) as [w Hw].
  rewrite <- (bil_ext (length C) A A (fun i => w (nth i C 0%Z)) z (fun i => w (nth i C 0%Z)) z) by auto.
  apply H. exists (nth i C 0%Z). split; [apply nth_In; auto|]. rewrite Hw by auto. exact Zi.
Qed.

(** setPrecision / setVariance compute the inverse. *)
Lemma inverse_ok d M : square d M -> sym d (entry M) -> pd d (entry M) ->
  are_inverse d M (if Nat.ltb 0 (length M) then inverse M else M).
Proof.
  intros SM Hs Hp. destruct (pd_inverse d M SM Hs Hp) as [B HB].
  destruct (Nat.ltb_spec 0 (length M)) as [L|L].
  - rewrite (Hinv d M B HB). exact HB.
  - destruct SM as [LM RM]. assert (d = 0%nat) by lia. subst d.
    split; [split; auto|]. split; [split; auto|]. intros; lia.
Qed.

Section Two.
Variables (C S : list Z) (n b : mnormal).
Hypothesis NC : NoDup C.
Hypothesis NS : NoDup S.
Hypothesis HS : incl S C.
Hypothesis Gn : good C n.
Notation rel := (findRelativeItems S C).
Notation k := (length rel).
Let at_ a := nth a rel 0%nat.

(** Products and quotients. *)
Lemma product_good divide : good S b ->
  let f := fun w => frm C n w + sign_of divide * frm S b w in
  positive_on C f ->
  let r := multiplySubsetInternal inverse determinant n b rel divide in
  good C r /\ forall w, frm C r w = f w.
Proof.
  intros Gb f Hf r.
  assert (Lk : k = length S) by apply rel_length.
  assert (Ln : length (no_mean n) = length C) by (rewrite (g_mean _ _ Gn); apply map_length).
  assert (Lb : length (no_mean b) = k) by (rewrite (g_mean _ _ Gb), map_length; auto).
  assert (Sqn : square (length (no_mean n)) (no_precision n)) by (rewrite Ln; apply Gn).
  assert (Sqb : square k (no_precision b)) by (rewrite Lk; apply Gb).
  assert (NDr : NoDup rel) by (apply rel_nd; auto).
  assert (Lr : forall i, In i rel -> (i < length (no_mean n))%nat) by (rewrite Ln; intros i; apply rel_lt; auto).
  set (Q := if divide then mscale (-1) (no_precision b) else no_precision b) in *.
  assert (SqQ : square k Q) by (unfold Q; destruct divide; [apply mscale_square|]; exact Sqb).
  assert (Qe : forall a c, entry Q a c = sign_of divide * entry (no_precision b) a c).
  { intros a c. unfold Q, sign_of. destruct divide; [rewrite entry_mscale|]; ring. }
  assert (Qs : sym k (entry Q)).
  { rewrite Lk. intros a c Ha Hc. rewrite !Qe, (g_sym _ _ Gb) by auto. reflexivity. }
  assert (Bb : forall w, bil k (entry Q) (fun a => w (nth a S 0%Z)) (fun a => w (nth a S 0%Z)) = sign_of divide * frm S b w).
  { intros w. unfold frm. rewrite <- bil_scal_A, Lk. apply bil_ext; auto. }
  set (N := madd (msubset (no_precision n) rel) Q).
  assert (SqN : square k N) by (apply madd_square; auto; apply msubset_square).
  assert (Ne : forall a c, (a < k)%nat -> (c < k)%nat -> entry N a c = entry (no_precision n) (at_ a) (at_ c) + entry Q a c).
  { intros a c Ha Hc. unfold N. rewrite (entry_madd k) by (auto; apply msubset_square).
    rewrite entry_msubset by auto. reflexivity. }
  assert (atl : forall a, (a < k)%nat -> (at_ a < length C)%nat).
  { intros a Ha. rewrite <- Ln. apply Lr, nth_In, Ha. }
  assert (Ns : sym k (entry N)).
  { intros a c Ha Hc. rewrite !Ne by auto. rewrite (Qs a c) by auto. rewrite (g_sym _ _ Gn) by auto. reflexivity. }
  assert (Np : pd k (entry N)).
  { intros u (a & Ha & Ua).
    set (l := lift rel u).
    destruct (assign_exists C l NC) as [w Hw].
    assert (Wat : forall c, (c < k)%nat -> w (nth c S 0%Z) = u c).
    { intros c Hc. rewrite <- (rel_at C S) by (auto; lia). rewrite Hw by (apply atl; auto).
      apply (lift_at rel NDr u c Hc). }
    assert (E : bil k (entry N) u u = f w).
    { unfold f. rewrite <- Bb. rewrite (bil_ext k (entry Q) (entry Q) _ u _ u) by auto.
      rewrite (bil_ext k (entry N) (fun a c => entry (no_precision n) (at_ a) (at_ c) + entry Q a c) u u u u) by auto.
      rewrite bil_plus_A. f_equal. unfold frm.
      rewrite (bil_ext (length C) _ (entry (no_precision n)) _ l _ l) by auto.
      rewrite <- Ln in *.
      rewrite (bil_row (length (no_mean n))).
      rewrite (sumR_ext _ (fun i => l i * sumR (length (no_mean n)) (fun j => entry (no_precision n) i j * l j))
        (fun i => (sumR (length (no_mean n)) (fun j => entry (no_precision n) i j * l j)) * l i)) by (intros; ring).
      unfold l at 2. rewrite (lift_pair (length (no_mean n)) rel Lr). rewrite bil_row. apply sumR_ext. intros c Hc.
      rewrite Rmult_comm. f_equal. unfold l. rewrite (lift_pair (length (no_mean n)) rel Lr). reflexivity. }
    rewrite E. apply Hf. exists (nth a S 0%Z). split; [apply HS, nth_In; lia|]. rewrite Wat by auto. exact Ua. }
  assert (NB : exists B, are_inverse k N B) by (apply pd_inverse; auto).
  assert (Pe : forall i j, (i < length (no_mean n))%nat -> (j < length (no_mean n))%nat -> entry (no_precision r) i j = _)
    by (exact (P'_entry inverse determinant n b rel divide Sqn Sqb NDr Lr NB (Hinv k N))).
  assert (Psq : square (length (no_mean n)) (no_precision r))
    by (exact (P'_square inverse determinant n b rel divide Sqn Sqb NDr Lr NB (Hinv k N))).
  assert (Pm : no_mean r = no_mean n).
  { apply (mean_agree inverse determinant n b rel divide Sqb Lb NDr Lr NB (Hinv k N)).
    rewrite (g_mean _ _ Gn), (g_mean _ _ Gb). unfold vsubset, findRelativeItems. rewrite map_map. apply map_ext_in.
    intros x Hx. destruct (rel_pos C S HS x Hx) as [L E]. rewrite (nth_map_lt _ _ _ _ 0%Z) by auto. rewrite E. reflexivity. }
  assert (Pf : forall w, frm C r w = f w).
  { intros w. unfold f. rewrite <- Bb. unfold frm. rewrite <- Ln.
    rewrite (bil_ext (length (no_mean n)) (entry (no_precision r)) _ (fun i => w (nth i C 0%Z)) (fun i => w (nth i C 0%Z))
              (fun i => w (nth i C 0%Z)) (fun i => w (nth i C 0%Z)) Pe) by auto.
    rewrite bil_plus_A. f_equal. rewrite (bil_E n b rel divide Lr). fold Q. apply bil_ext; auto;
    intros a Ha; rewrite (rel_at C S) by (auto; lia); reflexivity. }
  assert (Ps : sym (length C) (entry (no_precision r))).
  { rewrite <- Ln. intros i j Hi Hj. rewrite (Pe i j), (Pe j i) by auto.
    rewrite (g_sym _ _ Gn) by lia. f_equal. fold Q. rewrite sumR_swap. apply sumR_ext. intros a Ha. apply sumR_ext. intros c Hc.
    rewrite (Qs c a) by auto. ring. }
  assert (Pp : pd (length C) (entry (no_precision r))).
  { apply positive_pd; auto. intros w Hw. change (0 < frm C r w). rewrite Pf. apply Hf, Hw. }
  rewrite Ln in Psq.
  split; auto. constructor; auto.
  - rewrite Pm. apply Gn.
  - change (no_variance r) with (if Nat.ltb 0 (length (no_precision r)) then inverse (no_precision r) else no_variance n).
    pose proof (inverse_ok (length C) (no_precision r) Psq Ps Pp) as I.
    destruct (Nat.ltb_spec 0 (length (no_precision r))) as [L|L]; auto.
    destruct (g_inv _ _ Gn) as (_ & Sv & _). split; auto. split; auto.
    intros i j Hi Hj. destruct Psq. lia.
  - assert (Lm : length (no_mean r) = length C) by (rewrite Pm; exact Ln).
    rewrite <- Lm. reflexivity.
Qed.

Lemma mul_good : good S b -> let r := multiplySubset inverse determinant n b rel in
  good C r /\ forall w, frm C r w = frm C n w + frm S b w.
Proof.
  intros Gb. pose proof (product_good false Gb) as H. simpl in H.
  assert (Hp : positive_on C (fun w => frm C n w + 1 * frm S b w)).
  { intros w Hw. pose proof (frm_positive C n Gn w Hw). pose proof (frm_nonneg S b w Gb). lra. }
  destruct (H Hp) as [H1 H2]. split; auto. intros w. etransitivity; [exact (H2 w)|]. ring.
Qed.
Lemma div_good : good S b -> positive_on C (fun w => frm C n w - frm S b w) ->
  let r := divideSubset inverse determinant n b rel in
  good C r /\ forall w, frm C r w = frm C n w - frm S b w.
Proof.
  intros Gb Hp. pose proof (product_good true Gb) as H. simpl in H.
  assert (Hp' : positive_on C (fun w => frm C n w + -1 * frm S b w)).
  { intros w Hw. pose proof (Hp w Hw). lra. }
  destruct (H Hp') as [H1 H2]. split; auto. intros w. etransitivity; [exact (H2 w)|]. ring.
Qed.

(** Marginals. *)
Definition agree (A : list Z) (w w' : Z -> R) : Prop := forall x, In x A -> w x = w' x.
Definition is_min (q : (Z -> R) -> R) (A : list Z) (m : (Z -> R) -> R) : Prop :=
  forall w, (exists w', agree A w w' /\ q w' = m w) /\ (forall w', agree A w w' -> m w <= q w').

Lemma marginal_good : let r := computeMarginal inverse determinant n rel in
  good S r /\ is_min (frm C n) S (frm S r).
Proof.
  intros r.
  assert (Lk : k = length S) by apply rel_length.
  assert (Lr : forall i, In i rel -> (i < length C)%nat) by (intros i; apply rel_lt; auto).
  assert (NDr : NoDup rel) by (apply rel_nd; auto).
  set (V := msubset (no_variance n) rel).
  assert (Vsq : square (length S) V) by (rewrite <- Lk; apply msubset_square).
  assert (Vs : sym (length S) (entry V))
    by (rewrite <- Lk; apply (sub_sym (length C) (no_precision n) (no_variance n) rel (g_inv _ _ Gn) (g_sym _ _ Gn) Lr)).
  assert (Vp : pd (length S) (entry V))
    by (rewrite <- Lk; apply (sub_pd (length C) (no_precision n) (no_variance n) rel (g_inv _ _ Gn) (g_pd _ _ Gn) NDr Lr)).
  assert (Er : no_precision r = (if Nat.ltb 0 (length V) then inverse V else V)) by reflexivity.
  assert (Ev : no_variance r = V) by reflexivity.
  pose proof (inverse_ok (length S) V Vsq Vs Vp) as I. rewrite <- Er in I.
  assert (Em : no_mean r = map mu S).
  { change (no_mean r) with (no_mean (if Nat.ltb 0 k then setMean (normal_dim k) (vsubset (no_mean n) rel) else normal_dim k)).
    destruct (Nat.ltb_spec 0 k) as [L|L].
    - cbn [no_mean setMean]. rewrite (g_mean _ _ Gn). unfold vsubset, findRelativeItems. rewrite map_map. apply map_ext_in.
      intros x Hx. destruct (rel_pos C S HS x Hx) as [L' E]. rewrite (nth_map_lt _ _ _ _ 0%Z) by auto. rewrite E. reflexivity.
    - assert (S = []) as -> by (destruct S; [reflexivity|simpl in *; lia]). reflexivity. }
  assert (W : are_inverse k V (no_precision r)) by (rewrite Lk; exact I).
  assert (Is : sym (length S) (entry (no_precision r))) by (apply (inverse_sym _ V); auto).
  assert (Gr : good S r).
  { constructor; auto.
    - apply I.
    - (* the whole list as a subset of itself *)
      intros z Hz.
      assert (E : bil (length S) (entry (no_precision r)) z z
                = bil (length S) (entry V) (fun i => sumR (length S) (fun j => entry (no_precision r) i j * z j))
                                           (fun i => sumR (length S) (fun j => entry (no_precision r) i j * z j))).
      { rewrite (bil_row (length S) (entry V)). rewrite bil_row. apply sumR_ext. intros i Hi.
        rewrite (inverse_apply _ V (no_precision r) z i I Hi). ring. }
      rewrite E. destruct (pd_nonneg _ _ (fun i => sumR (length S) (fun j => entry (no_precision r) i j * z j)) Vp) as [H|H]; auto.
      exfalso. destruct Hz as (i & Hi & Zi). apply Zi.
      rewrite <- (inverse_apply _ V (no_precision r) z i I Hi).
      assert (Z0 : forall j, (j < length S)%nat -> sumR (length S) (fun k => entry (no_precision r) j k * z k) = 0).
      { intros j Hj. destruct (Req_dec (sumR (length S) (fun k => entry (no_precision r) j k * z k)) 0) as [E0|E0]; auto.
        exfalso. assert (X : 0 < bil (length S) (entry V) (fun i => sumR (length S) (fun j => entry (no_precision r) i j * z j))
                                           (fun i => sumR (length S) (fun j => entry (no_precision r) i j * z j))).
        { apply Vp. exists j. auto. } lra. }
      etransitivity; [|apply (sumR_zero (length S))]. apply sumR_ext. intros j Hj. rewrite Z0 by auto. ring.
    - apply are_inverse_sym. exact I.
    - assert (Lm : length (no_mean r) = length S) by (rewrite Em; apply map_length).
      rewrite <- Lm. reflexivity. }
  split; auto. intros w.
  set (x := fun a => w (nth a S 0%Z)).
  assert (Fx : frm S r w = bil k (entry (no_precision r)) x x) by (rewrite Lk; reflexivity).
  split.
  - destruct (assign_exists C (best (length C) (no_variance n) (no_precision r) rel x) NC) as [w' Hw'].
    exists w'. split.
    + intros y Hy. destruct (In_nth S y 0%Z Hy) as (a & Ha & E). rewrite <- E.
      rewrite <- (rel_at C S HS a Ha). rewrite Hw' by (apply Lr, nth_In; lia).
      rewrite (best_at (length C) (no_variance n) (no_precision r) rel Lr W x a) by lia. unfold x.
      rewrite (rel_at C S HS a Ha). reflexivity.
    + rewrite Fx. unfold frm.
      set (bx := best (length C) (no_variance n) (no_precision r) rel x) in *.
      rewrite (bil_ext (length C) (entry (no_precision n)) (entry (no_precision n)) _ bx _ bx) by auto.
      apply (best_pair (length C) (no_precision n) (no_variance n) (no_precision r) rel (g_inv _ _ Gn) Lr).
      intros a Ha. apply (best_at (length C) (no_variance n) (no_precision r) rel Lr W x a Ha).
  - intros w' Hw'. rewrite Fx.
    apply (best_least (length C) (no_precision n) (no_variance n) (no_precision r) rel (g_inv _ _ Gn) (g_sym _ _ Gn) (g_pd _ _ Gn) Lr W).
    intros a Ha. rewrite (rel_at C S HS a) by lia. unfold x. symmetry. apply Hw'. apply nth_In. lia.
Qed.
End Two.
End Normals.
