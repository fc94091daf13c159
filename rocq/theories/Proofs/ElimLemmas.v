(** Properties of abstract elimination sequences. *)
From Coq Require Import List ZArith Bool Lia Arith Sorted.
From Verif Require Import Spec.GraphSpec Spec.ElimSpec.
Import ListNotations.

Record wf (a : agraph) : Prop := {
  wf_sym : forall x y, a_adj a x y -> a_adj a y x;
  wf_irr : forall x, ~ a_adj a x x
}.

Lemma wf_elim_step a e sep : wf a -> a_neighbours a e sep ->
  wf (a_remove (a_connect a sep) e).
Proof.
  intros [Hs Hi] _. split; simpl.
  - intros x y [H|(H1 & H2 & H3)]; auto.
  - intros x [H|(H1 & _)]; auto. eapply Hi; eauto.
Qed.

Lemma a_remove_In a e x : In x (a_items (a_remove a e)) <-> In x (a_items a) /\ x <> e.
Proof.
  simpl. rewrite filter_In. destruct (Z.eqb_spec x e); simpl; intuition; discriminate.
Qed.

Lemma inclb_incl s c : inclb s c = true <-> incl s c.
Proof.
  unfold inclb, incl. rewrite forallb_forall. split; intros H x Hx; specialize (H x Hx).
  - apply existsb_exists in H. destruct H as (y & Hy & E). apply Z.eqb_eq in E. now subst.
  - apply existsb_exists. exists x. split; auto. apply Z.eqb_refl.
Qed.

Lemma first_min_In a e : first_min a e -> In e (a_items a).
Proof. intros (l1 & l2 & n & E & _). rewrite E. apply in_elt. Qed.

Section E.
Context {a : agraph} {es : list Z} {cs ss : list (list Z)}.

Lemma elim_lengths : elim a es cs ss -> length cs = S (length ss) /\ length es = length ss.
Proof. induction 1; simpl; lia. Qed.
End E.

Lemma elim_nonempty a es cs ss : elim a es cs ss -> cs <> [].
Proof. destruct 1; discriminate. Qed.

Lemma elim_incl a es cs ss : elim a es cs ss -> wf a ->
  forall c, In c cs -> incl c (a_items a).
Proof.
  induction 1 as [a Hc|a e sep cl es cs ss Hnc Hmin Hnb Hsort Hcl Hel IH]; intros Hwf c Hc'.
  - destruct Hc' as [<-|[]]. apply incl_refl.
  - destruct Hc' as [<-|Hc'].
    + intros x Hx. apply Hcl in Hx. destruct Hx as [->|Hx].
      * now apply first_min_In.
      * now apply Hnb in Hx.
    + intros x Hx. apply IH in Hc'; [|eapply wf_elim_step; eauto].
      apply Hc', a_remove_In in Hx. tauto.
Qed.

Lemma elim_es_In a es cs ss : elim a es cs ss -> forall e, In e es -> In e (a_items a).
Proof.
  induction 1 as [a Hc|a e sep cl es cs ss Hnc Hmin Hnb Hsort Hcl Hel IH]; intros e' He'.
  - destruct He'.
  - destruct He' as [<-|He']; [now apply first_min_In|].
    apply IH, a_remove_In in He'. tauto.
Qed.

(** Every clique is inside some cluster. *)
Lemma elim_clique a es cs ss : elim a es cs ss -> wf a ->
  forall s, incl s (a_items a) -> (forall x y, In x s -> In y s -> x <> y -> a_adj a x y) ->
  exists c, In c cs /\ incl s c.
Proof.
  induction 1 as [a Hc|a e sep cl es cs ss Hnc Hmin Hnb Hsort Hcl Hel IH]; intros Hwf s Hs Hq.
  - exists (a_items a). split; [now left|auto].
  - destruct (in_dec Z.eq_dec e s) as [He|He].
    + exists cl. split; [now left|]. intros x Hx. apply Hcl.
      destruct (Z.eq_dec x e); auto. right. apply Hnb. split; auto.
    + destruct (IH (wf_elim_step _ _ _ Hwf Hnb) s) as (c & Hc & Hsc).
      * intros x Hx. apply a_remove_In. split; [auto|]. intros ->. tauto.
      * intros x y Hx Hy Hxy. simpl. left. auto.
      * exists c. split; [now right|auto].
Qed.

Lemma elim_sep_clique a e sep : a_neighbours a e sep -> wf a ->
  let a' := a_remove (a_connect a sep) e in
  incl sep (a_items a') /\ (forall x y, In x sep -> In y sep -> x <> y -> a_adj a' x y).
Proof.
  intros [Hnd Hnb] Hwf. split.
  - intros x Hx. apply a_remove_In. apply Hnb in Hx. destruct Hx as [Hx Hadj]. split; auto.
    intros ->. eapply wf_irr; eauto.
  - intros x y Hx Hy Hxy. simpl. right. auto.
Qed.

(** The separator emitted at position i lies in a later cluster. *)
Lemma elim_sep_later a es cs ss : elim a es cs ss -> wf a ->
  forall i sep, nth_error ss i = Some sep ->
  exists k c, (i < k)%nat /\ nth_error cs k = Some c /\ incl sep c.
Proof.
  induction 1 as [a Hc|a e sep cl es cs ss Hnc Hmin Hnb Hsort Hcl Hel IH]; intros Hwf i sp Hi.
  - destruct i; discriminate.
  - pose proof (wf_elim_step _ _ _ Hwf Hnb) as Hwf'. destruct i as [|i]; simpl in Hi.
    + injection Hi as <-. destruct (elim_sep_clique a e sep Hnb Hwf) as [H1 H2].
      destruct (elim_clique _ _ _ _ Hel Hwf' sep H1 H2) as (c & Hc & Hs).
      apply In_nth_error in Hc. destruct Hc as [k Hk]. exists (S k), c. split; [lia|auto].
    + destruct (IH Hwf' i sp Hi) as (k & c & Hik & Hk & Hs). exists (S k), c. split; [lia|auto].
Qed.

(** Structure of each cluster. *)
Lemma elim_cluster a es cs ss : elim a es cs ss -> wf a ->
  forall i e sep, nth_error es i = Some e -> nth_error ss i = Some sep ->
  exists c, nth_error cs i = Some c /\ (forall x, In x c <-> x = e \/ In x sep) /\
    ~ In e sep /\ NoDup sep /\
    (forall k c', (i < k)%nat -> nth_error cs k = Some c' -> ~ In e c').
Proof.
  induction 1 as [a Hc|a e sep cl es cs ss Hnc Hmin Hnb Hsort Hcl Hel IH];
    intros Hwf i e' sp He' Hsp.
  - destruct i; discriminate.
  - pose proof (wf_elim_step _ _ _ Hwf Hnb) as Hwf'. destruct i as [|i]; simpl in *.
    + injection He' as <-. injection Hsp as <-. exists cl. split; auto. split; auto.
      split; [|split; [apply Hnb|]].
      * intros H. apply Hnb in H. destruct H as [_ H]. exact (wf_irr _ Hwf _ H).
      * intros [|k] c' Hk Hc' Hin; [lia|]. simpl in Hc'. apply nth_error_In in Hc'.
        apply (elim_incl _ _ _ _ Hel Hwf') in Hc'. apply Hc', a_remove_In in Hin. tauto.
    + destruct (IH Hwf' i e' sp He' Hsp) as (c & H1 & H2 & H3 & H4 & H5).
      exists c. split; auto. split; auto. split; auto. split; auto.
      intros [|k] c' Hk Hc'; [lia|]. apply (H5 k); auto. lia.
Qed.

Lemma elim_last a es cs ss : elim a es cs ss -> wf a ->
  exists c, nth_error cs (length ss) = Some c /\
    (forall x, In x (a_items a) -> In x es \/ In x c) /\
    (forall x, In x c -> ~ In x es).
Proof.
  induction 1 as [a Hc|a e sep cl es cs ss Hnc Hmin Hnb Hsort Hcl Hel IH]; intros Hwf.
  - exists (a_items a). simpl. auto.
  - destruct (IH (wf_elim_step _ _ _ Hwf Hnb)) as (c & H1 & H2 & H3).
    exists c. simpl. split; auto. split.
    + intros x Hx. destruct (Z.eq_dec x e); auto.
      destruct (H2 x); auto. apply a_remove_In. auto.
    + intros x Hx [<-|Hes]; [|eapply H3; eauto].
      apply nth_error_In in H1.
      apply (elim_incl _ _ _ _ Hel (wf_elim_step _ _ _ Hwf Hnb)) in H1.
      apply H1, a_remove_In in Hx. tauto.
Qed.

Lemma elim_es_NoDup a es cs ss : elim a es cs ss -> NoDup es.
Proof.
  induction 1 as [a Hc|a e sep cl es cs ss Hnc Hmin Hnb Hsort Hcl Hel IH]; constructor; auto.
  intros H. apply (elim_es_In _ _ _ _ Hel), a_remove_In in H. tauto.
Qed.

Lemma elim_sorted a es cs ss : elim a es cs ss -> StronglySorted Z.lt (a_items a) ->
  forall c, In c cs -> StronglySorted Z.lt c.
Proof.
  induction 1 as [a Hc|a e sep cl es cs ss Hnc Hmin Hnb Hsort Hcl Hel IH]; intros Hs c Hc'.
  - destruct Hc' as [<-|[]]. auto.
  - destruct Hc' as [<-|Hc']; auto. apply IH; auto. simpl. clear -Hs.
    induction Hs as [|x l Hs IH HF]; simpl; [constructor|].
    destruct (x =? e)%Z; simpl; auto. constructor; auto.
    rewrite Forall_forall in *. intros y Hy. apply filter_In in Hy. apply HF. tauto.
Qed.

Lemma elim_len_sum a es cs ss : elim a es cs ss -> NoDup (a_items a) ->
  forall c, nth_error cs (length ss) = Some c -> (length es + length c = length (a_items a))%nat.
Proof.
  induction 1 as [a Hc|a e sep cl es cs ss Hnc Hmin Hnb Hsort Hcl Hel IH]; intros Hnd c Hc'.
  - simpl in *. injection Hc' as <-. reflexivity.
  - simpl in *. rewrite (IH (NoDup_filter _ Hnd) c Hc').
    assert (He : In e (a_items a)) by now apply first_min_In. clear -Hnd He.
    induction Hnd as [|x l Hni Hnd IH]; simpl in *; [tauto|].
    destruct (Z.eqb_spec x e) as [->|Hne]; simpl.
    + f_equal. assert (forall y, In y l -> negb (y =? e)%Z = true).
      { intros y Hy. destruct (Z.eqb_spec y e); auto. subst; tauto. }
      clear -H. induction l as [|y l IH]; simpl in *; auto.
      rewrite (H y); auto. simpl. f_equal. apply IH. auto.
    + f_equal. apply IH. tauto.
Qed.

(** A set inside two clusters is inside the separator of the earlier one. *)
Lemma elim_two a es cs ss : elim a es cs ss -> wf a ->
  forall s i j ci cj, (i < j)%nat -> nth_error cs i = Some ci -> nth_error cs j = Some cj ->
  incl s ci -> incl s cj -> exists sep, nth_error ss i = Some sep /\ incl s sep.
Proof.
  intros Hel Hwf s i j ci cj Hij Hi Hj Hsi Hsj.
  destruct (elim_lengths Hel) as [HL1 HL2].
  assert (j < length cs)%nat by (apply nth_error_Some; congruence).
  destruct (nth_error ss i) as [sep|] eqn:Es; [|apply nth_error_None in Es; lia].
  destruct (nth_error es i) as [e|] eqn:Ee; [|apply nth_error_None in Ee; lia].
  exists sep. split; auto.
  destruct (elim_cluster _ _ _ _ Hel Hwf i e sep Ee Es) as (c & H1 & H2 & H3 & H4 & H5).
  assert (c = ci) by congruence. subst c.
  intros x Hx. destruct (proj1 (H2 x) (Hsi x Hx)) as [->|]; auto.
  exfalso. eapply H5; [exact Hij|exact Hj|]. auto.
Qed.

Lemma elim_sep_sub a es cs ss : elim a es cs ss -> wf a ->
  forall i sep c, nth_error ss i = Some sep -> nth_error cs i = Some c -> incl sep c.
Proof.
  intros Hel Hwf i sep c Hs Hc. destruct (elim_lengths Hel) as [HL1 HL2].
  destruct (nth_error es i) as [e|] eqn:Ee.
  2:{ apply nth_error_None in Ee. assert (i < length ss)%nat by (apply nth_error_Some; congruence). lia. }
  destruct (elim_cluster _ _ _ _ Hel Hwf i e sep Ee Hs) as (c' & H1 & H2 & _).
  assert (c' = c) by congruence. subst. intros x Hx. apply H2. auto.
Qed.

(** Counting. *)
Lemma elim_count a es cs ss : elim a es cs ss -> wf a ->
  forall s, count_containing s cs =
    (count_containing s ss + (if existsb (inclb s) cs then 1 else 0))%nat.
Proof.
  unfold count_containing.
  induction 1 as [a Hc|a e sep cl es cs ss Hnc Hmin Hnb Hsort Hcl Hel IH]; intros Hwf s.
  - simpl. destruct (inclb s (a_items a)); reflexivity.
  - pose proof (wf_elim_step _ _ _ Hwf Hnb) as Hwf'. simpl. specialize (IH Hwf' s).
    destruct (inclb s sep) eqn:E1.
    + (* inside the separator: also inside the cluster and a later cluster *)
      assert (E2 : inclb s cl = true).
      { apply inclb_incl in E1. apply inclb_incl. intros x Hx. apply Hcl. right. auto. }
      rewrite E2. simpl. rewrite IH.
      assert (E3 : existsb (inclb s) cs = true).
      { destruct (elim_sep_clique a e sep Hnb Hwf) as [H1 H2].
        destruct (elim_clique _ _ _ _ Hel Hwf' sep H1 H2) as (c & Hc & Hs).
        apply existsb_exists. exists c. split; auto. apply inclb_incl in E1.
        apply inclb_incl. eapply incl_tran; eauto. }
      rewrite E3. lia.
    + destruct (inclb s cl) eqn:E2; simpl; [|exact IH].
      (* contains e, so no later cluster contains it *)
      assert (He : In e s).
      { destruct (in_dec Z.eq_dec e s) as [|Hn]; auto. exfalso.
        assert (inclb s sep = true); [|congruence].
        apply inclb_incl in E2. apply inclb_incl. intros x Hx.
        destruct (proj1 (Hcl x) (E2 x Hx)) as [->|]; auto. tauto. }
      assert (E3 : existsb (inclb s) cs = false).
      { destruct (existsb (inclb s) cs) eqn:E; auto. exfalso.
        apply existsb_exists in E. destruct E as (c & Hc & Hs). apply inclb_incl in Hs.
        apply Hs in He. apply (elim_incl _ _ _ _ Hel Hwf') in Hc.
        apply Hc, a_remove_In in He. tauto. }
      rewrite E3 in IH. lia.
Qed.
