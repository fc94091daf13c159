(** C23 and C25. *)
From Coq Require Import List ZArith Bool Lia Arith Permutation.
From Verif Require Import Model.Base Model.Items Model.Mixed Model.ClusterGraph
  Spec.BeliefSpec Spec.TreeSpec Spec.MessageSpec Spec.MixedSpec
  Proofs.ListLemmas Proofs.ItemsLemmas Proofs.MixedLemmas Proofs.GroupTac Proofs.MessageLemmas Proofs.MessageMain.
Import ListNotations.

Section M.
Variable S : sig.
Hypothesis L : group_laws S.
Notation bexp := (bexp S).

Lemma run_spec (e : bexp) : ok S e ->
  mwf (run S e) /\ m_items (run S e) = scope S e /\ factors (run S e) = facs S e.
Proof.
  induction e; cbn [run scope facs ok]; intros H.
  - split; [now apply mwf_of_items|auto].
  - split; [now apply mwf_of_belief|auto].
  - destruct H as (Ha & Hb & Hi). destruct (IHe1 Ha) as (W1 & I1 & F1), (IHe2 Hb) as (W2 & I2 & F2).
    split; [apply mwf_mul; auto; now rewrite I1, I2|]. split; [now rewrite mul_items|].
    rewrite factors_mul by auto. congruence.
  - destruct H as (Ha & Hb & Hi). destruct (IHe1 Ha) as (W1 & I1 & F1), (IHe2 Hb) as (W2 & I2 & F2).
    split; [apply mwf_div; auto; now rewrite I1, I2|]. split; [now rewrite div_items|].
    rewrite factors_div by auto. rewrite F1, F2. reflexivity.
  - destruct (IHe H) as (W1 & I1 & F1). destruct (same_set S (run S e) mean prec) as (A1 & A2 & A3).
    split; auto. split; congruence.
  - destruct (IHe H) as (W1 & I1 & F1). destruct (same_fix S (run S e)) as (A1 & A2 & A3).
    split; auto.
Qed.

Lemma lval_run (e : bexp) w : ok S e -> lval w (run S e) = Ok (total S w (facs S e)).
Proof.
  intros H. destruct (run_spec e H) as (W & I & F). unfold lval. rewrite evaluate_ev by auto.
  rewrite ev_total by auto. now rewrite F.
Qed.

Lemma facs_flip l : map (fun p : B S * bool => (fst p, negb (snd p))) l = map flip l.
Proof. reflexivity. Qed.

Lemma C23_main : forall e : bexp, ok S e ->
  m_items (run S e) = scope S e /\
  (forall w, lval w (run S e) = Ok (total S w (facs S e))) /\
  (forall o, ok S o -> incl (scope S o) (scope S e) -> forall w, exists va vb,
     lval w (run S e) = Ok va /\ lval w (run S o) = Ok vb /\
     lval w (mixed_mul (run S e) (run S o)) = Ok (dadd S va vb) /\
     lval w (mixed_div (run S e) (run S o)) = Ok (dsub S va vb) /\
     lval w (mixed_div (mixed_mul (run S e) (run S o)) (run S o)) = Ok va /\
     lval w (mixed_mul (mixed_div (run S e) (run S o)) (run S o)) = Ok va).
Proof.
  intros e He. split; [now apply run_spec|]. split; [intros; now apply lval_run|].
  intros o Ho Hi w. exists (total S w (facs S e)), (total S w (facs S o)).
  split; [now apply lval_run|]. split; [now apply lval_run|].
  assert (O1 : ok S (BMul S e o)) by (simpl; auto). assert (O2 : ok S (BDiv S e o)) by (simpl; auto).
  assert (O3 : ok S (BDiv S (BMul S e o) o)) by (simpl; auto).
  assert (O4 : ok S (BMul S (BDiv S e o) o)) by (simpl; auto).
  split; [|split; [|split]].
  - pose proof (lval_run _ w O1) as E. cbn [run facs] in E. rewrite E. now rewrite total_app.
  - pose proof (lval_run _ w O2) as E. cbn [run facs] in E. rewrite E.
    rewrite total_app, facs_flip, total_flip by auto. f_equal. dgroup L.
  - pose proof (lval_run _ w O3) as E. cbn [run facs] in E. rewrite E.
    rewrite !total_app, facs_flip, total_flip by auto. f_equal. dgroup L.
  - pose proof (lval_run _ w O4) as E. cbn [run facs] in E. rewrite E.
    rewrite !total_app, facs_flip, total_flip by auto. f_equal. dgroup L.
Qed.

(** ** C25 *)
Lemma nth_upd {A} (l : list A) k x p : (k < length l)%nat ->
  nth_error (upd l k x) p = if Nat.eqb k p then Some x else nth_error l p.
Proof.
  intros H. destruct (Nat.eqb_spec k p) as [<-|Hn]; [now apply nth_error_upd_eq|now apply nth_error_upd_neq].
Qed.

Lemma assoc_notin {A} i : forall scope (t : list A), ~ In i scope -> assoc i (combine scope t) = None.
Proof.
  induction scope as [|j scope IH]; intros [|x t] H; simpl; auto.
  destruct (Z.eqb_spec j i) as [->|]; [exfalso; apply H; now left|].
  apply IH. intros Hi; apply H; now right.
Qed.

Lemma addVector_spec items : NoDup items -> forall scope (t v : list (D S)),
  NoDup scope -> incl scope items -> length t = length scope -> length v = length items ->
  exists v', addVectorSubset v (findRelativeItems scope items) t = Ok v' /\ length v' = length items /\
    forall p i x, nth_error items p = Some i -> nth_error v p = Some x ->
      nth_error v' p = Some (dadd S x (or_zero S (assoc i (combine scope t)))).
Proof.
  intros Hnd. induction scope as [|j scope IH]; intros [|d t] v Hs Hi Hl Hv; simpl in Hl; try discriminate.
  - exists v. simpl. split; auto. split; auto. intros p i x _ Hx. rewrite Hx. f_equal. dgroup L.
  - inversion Hs as [|? ? Hni Hs']; subst.
    assert (Hj : In j items) by (apply Hi; now left).
    pose proof (findRelativeItem_spec j items Hj) as Hp.
    set (k := findRelativeItem j items) in *.
    assert (Hk : (k < length v)%nat) by (rewrite Hv; apply nth_error_Some; congruence).
    destruct (nth_error v k) as [x0|] eqn:Ex; [|apply nth_error_None in Ex; lia].
    destruct (IH t (upd v k (dadd S x0 d))) as (v' & E & Hl' & Hspec); auto.
    { intros y Hy; apply Hi; now right. } { now rewrite upd_length. }
    exists v'. cbn [findRelativeItems map addVectorSubset]. fold k.
    change (map (fun i => findRelativeItem i items) scope) with (findRelativeItems scope items).
    rewrite (vec_get_Ok _ _ _ Ex). cbn [bind]. split; auto. split; auto.
    intros p i x Hpi Hx. cbn [combine assoc].
    assert (Hu := nth_upd v k (dadd S x0 d) p Hk).
    destruct (Z.eqb_spec j i) as [->|Hne].
    + assert (p = k).
      { rewrite NoDup_nth_error in Hnd. apply Hnd; [apply nth_error_Some; congruence|congruence]. }
      subst p. rewrite Nat.eqb_refl in Hu.
      rewrite (Hspec k i _ Hpi Hu). rewrite assoc_notin by auto. simpl. f_equal.
      assert (x0 = x) by congruence. subst. dgroup L.
    + assert (p <> k) by (intros ->; congruence).
      destruct (Nat.eqb_spec k p); [congruence|]. rewrite Hx in Hu.
      now apply (Hspec p i x).
Qed.

Lemma addMatrix_spec items : NoDup items -> forall scope0, NoDup scope0 -> incl scope0 items ->
  forall scope (t mat : list (list (D S))),
  NoDup scope -> incl scope items -> length t = length scope ->
  (forall row, In row t -> length row = length scope0) ->
  length mat = length items -> (forall row, In row mat -> length row = length items) ->
  exists mat', addMatrixRows mat (findRelativeItems scope items) (findRelativeItems scope0 items) t = Ok mat' /\
    length mat' = length items /\ (forall row, In row mat' -> length row = length items) /\
    forall p i row, nth_error items p = Some i -> nth_error mat p = Some row ->
      exists row', nth_error mat' p = Some row' /\
        forall q j x, nth_error items q = Some j -> nth_error row q = Some x ->
          nth_error row' q = Some (dadd S x
            match assoc i (combine scope t) with
            | Some r => or_zero S (assoc j (combine scope0 r)) | None => dzero S end).
Proof.
  intros Hnd scope0 Hs0 Hi0. induction scope as [|j scope IH]; intros [|d t] mat Hs Hi Hl Ht Hv Hr;
    simpl in Hl; try discriminate.
  - exists mat. simpl. split; auto. split; auto. split; auto. intros p i row _ Hrow. exists row. split; auto.
    intros q k x _ Hx. rewrite Hx. f_equal. dgroup L.
  - inversion Hs as [|? ? Hni Hs']; subst.
    assert (Hj : In j items) by (apply Hi; now left).
    pose proof (findRelativeItem_spec j items Hj) as Hp.
    set (k := findRelativeItem j items) in *.
    assert (Hk : (k < length mat)%nat) by (rewrite Hv; apply nth_error_Some; congruence).
    destruct (nth_error mat k) as [r0|] eqn:Ex; [|apply nth_error_None in Ex; lia].
    assert (Hr0 : length r0 = length items) by (apply Hr; eapply nth_error_In; eauto).
    destruct (addVector_spec items Hnd scope0 d r0) as (r1 & E1 & Hl1 & Hspec1); auto.
    { apply Ht. now left. }
    destruct (IH t (upd mat k r1)) as (mat' & E & Hl' & Hrl & Hspec); auto.
    { intros y Hy; apply Hi; now right. } { intros; apply Ht; now right. } { now rewrite upd_length. }
    { intros row Hrow. apply upd_In in Hrow. destruct Hrow as [->|Hrow]; auto. }
    exists mat'. cbn [findRelativeItems map addMatrixRows]. fold k.
    change (map (fun i => findRelativeItem i items) scope) with (findRelativeItems scope items).
    change (map (fun i => findRelativeItem i items) scope0) with (findRelativeItems scope0 items).
    rewrite (vec_get_Ok _ _ _ Ex). cbn [bind]. rewrite E1. cbn [bind].
    split; auto. split; auto. split; auto.
    intros p i row Hpi Hrow. cbn [combine assoc].
    assert (Hu := nth_upd mat k r1 p Hk).
    destruct (Z.eqb_spec j i) as [->|Hne].
    + assert (p = k).
      { rewrite NoDup_nth_error in Hnd. apply Hnd; [apply nth_error_Some; congruence|congruence]. }
      subst p. rewrite Nat.eqb_refl in Hu.
      destruct (Hspec k i r1 Hpi Hu) as (row' & N' & Hq). exists row'. split; auto.
      intros q j' x Hqj Hx. assert (r0 = row) by congruence. subst r0.
      rewrite (Hq q j' _ Hqj (Hspec1 q j' x Hqj Hx)). rewrite (assoc_notin i scope) by auto. f_equal. dgroup L.
    + assert (p <> k) by (intros ->; congruence).
      destruct (Nat.eqb_spec k p); [congruence|]. rewrite Hrow in Hu.
      now apply (Hspec p i row).
Qed.

Lemma combine_map_assoc i : forall scope (t : list (D S)) (h : D S -> D S),
  assoc i (combine scope (map h t)) = option_map h (assoc i (combine scope t)).
Proof.
  induction scope as [|j scope IH]; intros [|x t] h; simpl; auto.
  destruct (Z.eqb j i); auto.
Qed.
Lemma combine_map_assoc2 i : forall scope (t : list (list (D S))) (h : list (D S) -> list (D S)),
  assoc i (combine scope (map h t)) = option_map h (assoc i (combine scope t)).
Proof.
  induction scope as [|j scope IH]; intros [|x t] h; simpl; auto.
  destruct (Z.eqb j i); auto.
Qed.

Definition dacc (h : B S -> D S) (l : list (B S * bool)) (x : D S) : D S :=
  fold_left (fun a p => dadd S a (sgn S (snd p) (h (fst p)))) l x.
Lemma dacc_gsum h l : forall x, dacc h l x = dadd S x (gsum S h l).
Proof.
  unfold dacc. induction l as [|p l IH]; intros x; simpl.
  - unfold gsum, dsumS; simpl. dgroup L.
  - rewrite IH. unfold gsum, dsumS; simpl. dgroup L.
Qed.

Lemma sgn_entry w i f v : or_zero S (assoc i (combine (bscope S f)
    (if v : bool then map (dopp S) (bderiv S f (map w (bscope S f))) else bderiv S f (map w (bscope S f))))) =
  sgn S v (entry S w i f).
Proof.
  unfold entry. destruct v; simpl; auto. rewrite combine_map_assoc.
  destruct (assoc i _); simpl; auto. dgroup L.
Qed.

Lemma deriv_loop_spec (m : mixed S) w : NoDup (m_items m) -> forall bs invs k ret,
  length bs = length invs ->
  (forall b, In b bs -> NoDup (bscope S b) /\ incl (bscope S b) (m_items m) /\ shaped S b) ->
  (forall i v, nth_error invs i = Some v -> nth_error (m_inv m) (k + i) = Some v) ->
  length ret = length (m_items m) ->
  exists g, deriv_loop m (map w (m_items m)) bs k ret = Ok g /\ length g = length (m_items m) /\
    forall p i x, nth_error (m_items m) p = Some i -> nth_error ret p = Some x ->
      nth_error g p = Some (dacc (entry S w i) (combine bs invs) x).
Proof.
  intros Hnd. induction bs as [|b bs IH]; intros [|v invs] k ret Hl Hb Hv Hr; simpl in Hl; try discriminate.
  - exists ret. simpl. auto.
  - cbn [deriv_loop]. destruct (Hb b (or_introl eq_refl)) as (N1 & N2 & N3).
    rewrite findSubset_rel by auto. cbn [bind].
    pose proof (Hv 0%nat v eq_refl) as Hv0. rewrite Nat.add_0_r in Hv0.
    rewrite (vec_at_Ok _ _ _ Hv0). cbn [bind].
    destruct (addVector_spec (m_items m) Hnd (bscope S b)
       (if v then map (dopp S) (bderiv S b (map w (bscope S b))) else bderiv S b (map w (bscope S b))) ret)
      as (r1 & E1 & Hl1 & H1); auto.
    { destruct (N3 w) as (Q1 & Q2 & Q3). destruct v; rewrite ?map_length; assumption. }
    rewrite E1. cbn [bind].
    destruct (IH invs (k + 1)%nat r1) as (g & E & Hg & H2); auto.
    { intros; apply Hb; now right. }
    { intros i v' Hv'. replace (k + 1 + i)%nat with (k + Datatypes.S i)%nat by lia. now apply Hv. }
    exists g. split; auto. split; auto. intros p i x Hp Hx.
    rewrite (H2 p i _ Hp (H1 p i x Hp Hx)). rewrite sgn_entry. reflexivity.
Qed.

Lemma sgn_entry2 w i j f v : match assoc i (combine (bscope S f)
    (if v : bool then map (map (dopp S)) (bderiv2 S f (map w (bscope S f))) else bderiv2 S f (map w (bscope S f)))) with
    | Some r => or_zero S (assoc j (combine (bscope S f) r)) | None => dzero S end =
  sgn S v (entry2 S w i j f).
Proof.
  unfold entry2. destruct v; simpl; auto. rewrite combine_map_assoc2.
  destruct (assoc i _); simpl; [|dgroup L]. rewrite combine_map_assoc.
  destruct (assoc j _); simpl; auto. dgroup L.
Qed.

Lemma deriv2_loop_spec (m : mixed S) w : NoDup (m_items m) -> forall bs invs k ret,
  length bs = length invs ->
  (forall b, In b bs -> NoDup (bscope S b) /\ incl (bscope S b) (m_items m) /\ shaped S b) ->
  (forall i v, nth_error invs i = Some v -> nth_error (m_inv m) (k + i) = Some v) ->
  length ret = length (m_items m) -> (forall row, In row ret -> length row = length (m_items m)) ->
  exists g, deriv2_loop m (map w (m_items m)) bs k ret = Ok g /\ length g = length (m_items m) /\
    (forall row, In row g -> length row = length (m_items m)) /\
    forall p i row, nth_error (m_items m) p = Some i -> nth_error ret p = Some row ->
      exists row', nth_error g p = Some row' /\
      forall q j x, nth_error (m_items m) q = Some j -> nth_error row q = Some x ->
        nth_error row' q = Some (dacc (entry2 S w i j) (combine bs invs) x).
Proof.
  intros Hnd. induction bs as [|b bs IH]; intros [|v invs] k ret Hl Hb Hv Hr Hrr; simpl in Hl; try discriminate.
  - exists ret. simpl. split; auto. split; auto. split; auto. intros p i row Hp Hrow. eauto.
  - cbn [deriv2_loop]. destruct (Hb b (or_introl eq_refl)) as (N1 & N2 & N3).
    rewrite findSubset_rel by auto. cbn [bind].
    pose proof (Hv 0%nat v eq_refl) as Hv0. rewrite Nat.add_0_r in Hv0.
    rewrite (vec_at_Ok _ _ _ Hv0). cbn [bind].
    destruct (addMatrix_spec (m_items m) Hnd (bscope S b) N1 N2 (bscope S b)
       (if v then map (map (dopp S)) (bderiv2 S b (map w (bscope S b))) else bderiv2 S b (map w (bscope S b))) ret)
      as (r1 & E1 & Hl1 & Hrr1 & H1); auto.
    { destruct (N3 w) as (Q1 & Q2 & Q3). destruct v; rewrite ?map_length; assumption. }
    { destruct (N3 w) as (_ & _ & Hrow). destruct v; auto.
      intros row Hin. apply in_map_iff in Hin. destruct Hin as (r & <- & Hin). rewrite map_length. auto. }
    unfold addMatrixSubset. rewrite E1. cbn [bind].
    destruct (IH invs (k + 1)%nat r1) as (g & E & Hg & Hgr & H2); auto.
    { intros; apply Hb; now right. }
    { intros i v' Hv'. replace (k + 1 + i)%nat with (k + Datatypes.S i)%nat by lia. now apply Hv. }
    exists g. split; auto. split; auto. split; auto. intros p i row Hp Hrow.
    destruct (H1 p i row Hp Hrow) as (row1 & N4 & H3).
    destruct (H2 p i row1 Hp N4) as (row' & N5 & H4). exists row'. split; auto.
    intros q j x Hq Hx. rewrite (H4 q j _ Hq (H3 q j x Hq Hx)). rewrite sgn_entry2. reflexivity.
Qed.

Lemma facs_beliefs (e : bexp) : ok S e -> (forall p, In p (facs S e) -> NoDup (bscope S (fst p)) /\ incl (bscope S (fst p)) (scope S e)).
Proof.
  induction e; simpl; intros H p Hp.
  - destruct Hp.
  - destruct Hp as [<-|[]]. simpl. split; auto. apply incl_refl.
  - destruct H as (Ha & Hb & Hi). apply in_app_or in Hp. destruct Hp as [Hp|Hp]; [now apply IHe1|].
    destruct (IHe2 Hb p Hp). split; auto. eapply incl_tran; eauto.
  - destruct H as (Ha & Hb & Hi). apply in_app_or in Hp. destruct Hp as [Hp|Hp]; [now apply IHe1|].
    apply in_map_iff in Hp. destruct Hp as (q & <- & Hq). simpl.
    destruct (IHe2 Hb q Hq). split; auto. eapply incl_tran; eauto.
  - auto.
  - auto.
Qed.

Lemma combine_fst_in {A C} (l1 : list A) (l2 : list C) a : length l1 = length l2 -> In a l1 ->
  exists c, In (a, c) (combine l1 l2).
Proof.
  revert l2. induction l1 as [|x l1 IH]; intros [|y l2] Hl Ha; simpl in *; try discriminate; [tauto|].
  destruct Ha as [->|Ha]; [eauto|]. destruct (IH l2) as (c & Hc); auto. eauto.
Qed.

Lemma entries_mwf (m : mixed S) : mwf m ->
  (forall p, In p (factors m) -> NoDup (bscope S (fst p)) /\ shaped S (fst p)) ->
  forall w,
  (exists g, evaluateDerivative m (map w (m_items m)) = Ok g /\ length g = length (m_items m) /\
    forall p i, nth_error (m_items m) p = Some i ->
      nth_error g p = Some (gsum S (entry S w i) (factors m))) /\
  (exists h, evaluateSecondDerivative m (map w (m_items m)) = Ok h /\
    length h = length (m_items m) /\ (forall row, In row h -> length row = length (m_items m)) /\
    forall p i q j, nth_error (m_items m) p = Some i -> nth_error (m_items m) q = Some j ->
      exists row, nth_error h p = Some row /\
        nth_error row q = Some (gsum S (entry2 S w i j) (factors m))).
Proof.
  intros W Hsh w.
  assert (Hb : forall b, In b (m_beliefs m) ->
     NoDup (bscope S b) /\ incl (bscope S b) (m_items m) /\ shaped S b).
  { intros b Hb. destruct (combine_fst_in (m_beliefs m) (m_inv m) b) as (c & Hc); auto.
    { symmetry. apply W. }
    destruct (Hsh (b, c) Hc). split; auto. split; auto. now apply (mwf_scope _ _ W). }
  assert (Hl : length (m_beliefs m) = length (m_inv m)) by (symmetry; apply W).
  assert (Hz : forall n p x0, (p < n)%nat -> nth_error (repeat x0 n) p = Some (x0 : D S)).
  { intros n p x0 H. apply nth_error_repeat. auto. }
  split.
  - unfold evaluateDerivative. rewrite map_length.
    destruct (deriv_loop_spec m w (mwf_nd _ _ W) (m_beliefs m) (m_inv m) 0
       (repeat (dzero S) (length (m_items m)))) as (g & E & Hg & Hs); auto.
    { now rewrite repeat_length. }
    exists g. split; auto. split; auto. intros p i Hp.
    rewrite (Hs p i (dzero S)); auto.
    + rewrite dacc_gsum. f_equal. change (combine (m_beliefs m) (m_inv m)) with (factors m). dgroup L.
    + apply Hz. apply nth_error_Some. congruence.
  - unfold evaluateSecondDerivative. rewrite map_length.
    destruct (deriv2_loop_spec m w (mwf_nd _ _ W) (m_beliefs m) (m_inv m) 0
       (repeat (repeat (dzero S) (length (m_items m))) (length (m_items m)))) as (g & E & Hg & Hgr & Hs); auto.
    { now rewrite repeat_length. }
    { intros row Hrow. apply repeat_spec in Hrow. subst. now rewrite repeat_length. }
    exists g. split; auto. split; auto. split; auto. intros p i q j Hp Hq.
    destruct (Hs p i (repeat (dzero S) (length (m_items m))) Hp) as (row' & N & Hr).
    { apply nth_error_repeat. apply nth_error_Some. congruence. }
    exists row'. split; auto. rewrite (Hr q j (dzero S) Hq).
    + rewrite dacc_gsum. f_equal. change (combine (m_beliefs m) (m_inv m)) with (factors m). dgroup L.
    + apply Hz. apply nth_error_Some. congruence.
Qed.

Lemma C25_entries : forall e : bexp, ok S e -> (forall p, In p (facs S e) -> shaped S (fst p)) ->
  forall w,
  (exists g, evaluateDerivative (run S e) (map w (scope S e)) = Ok g /\ length g = length (scope S e) /\
    forall p i, nth_error (scope S e) p = Some i ->
      nth_error g p = Some (gsum S (entry S w i) (facs S e))) /\
  (exists h, evaluateSecondDerivative (run S e) (map w (scope S e)) = Ok h /\
    length h = length (scope S e) /\ (forall row, In row h -> length row = length (scope S e)) /\
    forall p i q j, nth_error (scope S e) p = Some i -> nth_error (scope S e) q = Some j ->
      exists row, nth_error h p = Some row /\
        nth_error row q = Some (gsum S (entry2 S w i j) (facs S e))).
Proof.
  intros e He Hsh w. destruct (run_spec e He) as (W & I & F).
  pose proof (entries_mwf (run S e) W) as H. rewrite F, I in H. apply H.
  intros p Hp. split; [now apply (facs_beliefs e He p Hp)|now apply Hsh].
Qed.

Lemma C25_cluster_main : forall (fs : list (B S)) ops cg cg',
  (forall f, In f fs -> NoDup (bscope S f)) ->
  (forall f d d2 k n items b, b_integral S f d d2 k n items = Ok b -> bscope S b = items) ->
  build fs = Ok cg -> run_ops cg ops = Ok cg' ->
  forall m, In m (cg_clusters cg' ++ map (fun e => e_belief e) (cg_edges cg')) ->
  (forall p, In p (combine (m_beliefs m) (m_inv m)) -> NoDup (bscope S (fst p)) /\ shaped S (fst p)) ->
  forall w,
  (exists g, evaluateDerivative m (map w (m_items m)) = Ok g /\ length g = length (m_items m) /\
    forall p i, nth_error (m_items m) p = Some i ->
      nth_error g p = Some (gsum S (entry S w i) (combine (m_beliefs m) (m_inv m)))) /\
  (exists h, evaluateSecondDerivative m (map w (m_items m)) = Ok h /\
    length h = length (m_items m) /\ (forall row, In row h -> length row = length (m_items m)) /\
    forall p i q j, nth_error (m_items m) p = Some i -> nth_error (m_items m) q = Some j ->
      exists row, nth_error h p = Some row /\
        nth_error row q = Some (gsum S (entry2 S w i j) (combine (m_beliefs m) (m_inv m)))).
Proof.
  intros fs ops cg cg' Hok HL E1 E2 m Hm. apply entries_mwf.
  assert (W : cgwf S cg) by (destruct (build_inv S L fs cg (fun _ => dzero S) Hok E1); auto).
  assert (W' : cgwf S cg').
  { destruct (inv_ops S L (fun _ => dzero S) (grand S cg (fun _ => dzero S)) ops cg cg' HL) as [H _]; auto.
    split; auto. }
  apply in_app_or in Hm. destruct Hm as [Hm|Hm]; [now apply (cw_clusters _ _ W')|].
  apply in_map_iff in Hm. destruct Hm as (e & <- & He). now apply (cw_edges _ _ W').
Qed.

(** derivatives are right if the factors' are *)
Section Dr.
Variable Dr : (D S -> D S) -> D S -> D S -> Prop.
Hypothesis LD : linear_derivative S Dr.

Lemma Dr_sgn v f t d : Dr f t d -> Dr (fun u => sgn S v (f u)) t (sgn S v d).
Proof. intros H. destruct v; simpl; auto. now apply (ld_opp _ _ LD). Qed.

Lemma Dr_sum {A} (f : A -> D S -> D S) (d : A -> D S) t l : (forall a, In a l -> Dr (f a) t (d a)) ->
  Dr (fun u => dsumS S (map (fun a => f a u) l)) t (dsumS S (map d l)).
Proof.
  unfold dsumS. induction l as [|a l IH]; intros H; simpl.
  - apply (ld_const _ _ LD).
  - apply (ld_add _ _ LD); [apply H; now left|]. apply IH. intros; apply H; now right.
Qed.

Lemma entry_out w i f : ~ In i (bscope S f) -> entry S w i f = dzero S.
Proof. intros H. unfold entry. now rewrite assoc_notin. Qed.
Lemma entry2_out w i j f : ~ In j (bscope S f) -> entry2 S w i j f = dzero S.
Proof.
  intros H. unfold entry2. destruct (assoc i _); auto. now rewrite assoc_notin.
Qed.
Lemma at_item_out (h : list (D S) -> D S) w j u f : ~ In j (bscope S f) ->
  map (at_item S w j u) (bscope S f) = map w (bscope S f).
Proof.
  intros H. apply map_ext_in. intros x Hx. unfold at_item. destruct (Z.eqb_spec x j); auto. subst; tauto.
Qed.

Lemma C25_derivatives : forall e : bexp, ok S e -> (forall p, In p (facs S e) -> shaped S (fst p)) ->
  forall w,
  ((forall p i, In p (facs S e) -> In i (bscope S (fst p)) ->
     Dr (fun u => fval S (at_item S w i u) (fst p)) (w i) (entry S w i (fst p))) ->
   forall p i g, evaluateDerivative (run S e) (map w (scope S e)) = Ok g ->
     nth_error (scope S e) p = Some i -> exists d, nth_error g p = Some d /\
     Dr (fun u => total S (at_item S w i u) (facs S e)) (w i) d) /\
  ((forall p i j, In p (facs S e) -> In i (bscope S (fst p)) -> In j (bscope S (fst p)) ->
     Dr (fun u => entry S (at_item S w j u) i (fst p)) (w j) (entry2 S w i j (fst p))) ->
   forall p i q j h, evaluateSecondDerivative (run S e) (map w (scope S e)) = Ok h ->
     nth_error (scope S e) p = Some i -> nth_error (scope S e) q = Some j ->
     exists row d, nth_error h p = Some row /\ nth_error row q = Some d /\
     Dr (fun u => gsum S (entry S (at_item S w j u) i) (facs S e)) (w j) d).
Proof.
  intros e He Hsh w. destruct (C25_entries e He Hsh w) as [(g0 & E1 & _ & G1) (h0 & E2 & _ & _ & G2)].
  split.
  - intros HD p i g Eg Hp. assert (g = g0) by congruence. subst g. exists (gsum S (entry S w i) (facs S e)).
    split; auto. unfold total, gsum.
    apply (Dr_sum (fun (a : B S * bool) u => signed S (at_item S w i u) a)
                  (fun p => sgn S (snd p) (entry S w i (fst p)))).
    intros a Ha. apply (ld_ext _ _ LD) with (fun u => sgn S (snd a) (fval S (at_item S w i u) (fst a))).
    { intros u. reflexivity. }
    apply Dr_sgn. destruct (in_dec Z.eq_dec i (bscope S (fst a))) as [Hi|Hi]; [now apply HD|].
    rewrite entry_out by auto. apply (ld_ext _ _ LD) with (fun _ => fval S w (fst a)); [|apply (ld_const _ _ LD)].
    intros u. unfold fval. rewrite (at_item_out (beval S (fst a))); auto.
  - intros HD p i q j h Eh Hp Hq. assert (h = h0) by congruence. subst h.
    destruct (G2 p i q j Hp Hq) as (row & N1 & N2). exists row, (gsum S (entry2 S w i j) (facs S e)).
    split; auto. split; auto. unfold gsum.
    apply (Dr_sum (fun (a : B S * bool) u => sgn S (snd a) (entry S (at_item S w j u) i (fst a)))
                  (fun p => sgn S (snd p) (entry2 S w i j (fst p)))).
    intros a Ha. apply Dr_sgn. destruct (in_dec Z.eq_dec j (bscope S (fst a))) as [Hj|Hj].
    + destruct (in_dec Z.eq_dec i (bscope S (fst a))) as [Hi|Hi]; [now apply HD|].
      assert (Ez : entry2 S w i j (fst a) = dzero S) by (unfold entry2; now rewrite assoc_notin). rewrite Ez.
      apply (ld_ext _ _ LD) with (fun _ => dzero S); [|apply (ld_const _ _ LD)].
      intros u. now rewrite entry_out.
    + rewrite entry2_out by auto. apply (ld_ext _ _ LD) with (fun _ => entry S w i (fst a)); [|apply (ld_const _ _ LD)].
      intros u. unfold entry. rewrite (at_item_out (beval S (fst a))); auto.
Qed.
End Dr.
End M.
