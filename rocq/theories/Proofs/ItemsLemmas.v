From Coq Require Import List ZArith Bool Lia Sorting.Sorted Sorting.Permutation.
From Verif Require Import Model.Base Model.Items.
Import ListNotations.
Local Open Scope Z_scope.

Lemma insert_perm x l : Permutation (insert x l) (x :: l).
Proof.
  induction l as [|y l IH]; simpl; [reflexivity|].
  destruct (x <=? y); [reflexivity|].
  rewrite IH. apply perm_swap.
Qed.

Lemma sort_perm l : Permutation (sort l) l.
Proof.
  induction l as [|x l IH]; simpl; [reflexivity|].
  rewrite insert_perm. now constructor.
Qed.

Lemma insert_sorted x l : StronglySorted Z.le l -> StronglySorted Z.le (insert x l).
Proof.
  induction 1 as [|y l Hs IH Hall]; simpl.
  - repeat constructor.
  - destruct (Z.leb_spec x y).
    + constructor; [constructor; auto|]. constructor; [lia|].
      eapply Forall_impl; [|exact Hall]. simpl; intros; lia.
    + constructor; auto.
      rewrite Forall_forall in *. intros z Hz.
      apply (Permutation_in _ (insert_perm x l)) in Hz.
      destruct Hz as [<-|Hz]; [lia|auto].
Qed.

Lemma sort_sorted l : StronglySorted Z.le (sort l).
Proof. induction l; simpl; [constructor|]. now apply insert_sorted. Qed.

Lemma sort_In x l : In x (sort l) <-> In x l.
Proof. split; apply Permutation_in; [apply sort_perm | symmetry; apply sort_perm]. Qed.

Lemma sort_NoDup l : NoDup l -> NoDup (sort l).
Proof. intros. eapply Permutation_NoDup; [symmetry; apply sort_perm | assumption]. Qed.

Lemma sorted_le_lt l : StronglySorted Z.le l -> NoDup l -> StronglySorted Z.lt l.
Proof.
  induction 1 as [|x l Hs IH Hall]; intros Hnd; constructor.
  - apply IH. now inversion Hnd.
  - inversion Hnd as [|? ? Hni Hnd']; subst.
    rewrite Forall_forall in *. intros y Hy.
    specialize (Hall y Hy). assert (x <> y) by (intros ->; auto). lia.
Qed.

(** Sorted lists with the same elements and no repetition are equal. *)
Lemma sorted_lt_ext l1 l2 :
  StronglySorted Z.lt l1 -> StronglySorted Z.lt l2 ->
  (forall x, In x l1 <-> In x l2) -> l1 = l2.
Proof.
  intros H1; revert l2. induction H1 as [|x l Hs IH Hall]; intros l2 H2 Hext.
  - destruct l2 as [|y l2]; auto. exfalso. apply (Hext y). now left.
  - destruct H2 as [|y l2 Hs2 Hall2].
    + exfalso. apply (Hext x). now left.
    + rewrite Forall_forall in *.
      assert (x = y) as ->.
      { destruct (proj1 (Hext x) (or_introl eq_refl)) as [->|Hx]; auto.
        destruct (proj2 (Hext y) (or_introl eq_refl)) as [->|Hy]; auto.
        specialize (Hall y Hy). specialize (Hall2 x Hx). lia. }
      f_equal. apply IH; auto.
      intros z; split; intros Hz.
      * destruct (proj1 (Hext z) (or_intror Hz)) as [->|]; auto.
        specialize (Hall _ Hz). lia.
      * destruct (proj2 (Hext z) (or_intror Hz)) as [->|]; auto.
        specialize (Hall2 _ Hz). lia.
Qed.

Lemma sorted_lt_NoDup l : StronglySorted Z.lt l -> NoDup l.
Proof.
  induction 1 as [|x l Hs IH Hall]; constructor; auto.
  intros Hin. rewrite Forall_forall in Hall. specialize (Hall _ Hin). lia.
Qed.

(** includes on strictly sorted ranges is inclusion. *)
Lemma includes_spec b a :
  StronglySorted Z.lt a -> StronglySorted Z.lt b ->
  includes b a = true <-> incl a b.
Proof.
  intros Ha Hb. revert a Ha.
  induction Hb as [|y b Hb IH Hall]; intros a Ha.
  - destruct a as [|x a]; simpl.
    + split; auto. intros _ ? [].
    + split; [discriminate|]. intros H. destruct (H x (or_introl eq_refl)).
  - destruct Ha as [|x a Ha Halla]; simpl.
    + split; auto. intros _ ? [].
    + rewrite Forall_forall in *.
      destruct (Z.ltb_spec x y); [|destruct (Z.ltb_spec y x)].
      * split; [discriminate|]. intros Hi.
        destruct (Hi x (or_introl eq_refl)) as [->|Hin]; [lia|].
        specialize (Hall _ Hin). lia.
      * rewrite IH by (constructor; auto; now apply Forall_forall).
        split; intros Hi z Hz.
        -- right. now apply Hi.
        -- destruct (Hi z Hz) as [->|]; auto.
           destruct Hz as [->|Hz]; [lia|]. specialize (Halla _ Hz). lia.
      * assert (x = y) as -> by lia.
        rewrite IH by assumption. split; intros Hi z Hz.
        -- destruct Hz as [->|Hz]; [now left | right; auto].
        -- destruct (Hi z (or_intror Hz)) as [->|]; auto.
           specialize (Halla _ Hz). lia.
Qed.

Lemma isSubset_incl a b : NoDup a -> NoDup b -> isSubset a b = true <-> incl a b.
Proof.
  intros Ha Hb. unfold isSubset.
  rewrite includes_spec.
  - unfold incl. split; intros H x Hx.
    + apply sort_In, H, sort_In, Hx.
    + apply sort_In, H, sort_In, Hx.
  - apply sorted_le_lt; [apply sort_sorted | now apply sort_NoDup].
  - apply sorted_le_lt; [apply sort_sorted | now apply sort_NoDup].
Qed.

(** find_pos *)
Lemma find_pos_Some i l k : find_pos i l = Some k -> nth_error l k = Some i.
Proof.
  revert k. induction l as [|y l IH]; simpl; intros k; [discriminate|].
  destruct (Z.eqb_spec y i) as [->|].
  - intros [= <-]. reflexivity.
  - destruct (find_pos i l) as [k'|]; simpl; [|discriminate].
    intros [= <-]. simpl. now apply IH.
Qed.

Lemma find_pos_None i l : find_pos i l = None <-> ~ In i l.
Proof.
  induction l as [|y l IH]; simpl; [tauto|].
  destruct (Z.eqb_spec y i) as [->|].
  - split; [discriminate|]. intros H; exfalso; auto.
  - destruct (find_pos i l); simpl.
    + split; [discriminate|]. intros H. exfalso.
      assert (~ In i l) by tauto. now apply IH in H0.
    + split; auto. intros _ [|]; tauto.
Qed.

Lemma find_pos_In i l : In i l -> exists k, find_pos i l = Some k.
Proof.
  intros H. destruct (find_pos i l) eqn:E; eauto. apply find_pos_None in E. tauto.
Qed.

Lemma findRelativeItem_spec i l : In i l -> nth_error l (findRelativeItem i l) = Some i.
Proof.
  intros H. unfold findRelativeItem. destruct (find_pos_In i l H) as [k E].
  rewrite E. now apply find_pos_Some.
Qed.

Lemma findItemsDifference_In x l s :
  In x (findItemsDifference l s) <-> In x l /\ ~ In x s.
Proof.
  unfold findItemsDifference. rewrite filter_In.
  destruct (find_pos x s) eqn:E.
  - assert (In x s) by (apply find_pos_Some in E; now apply nth_error_In in E).
    split; intros [? H0]; [discriminate | tauto].
  - apply find_pos_None in E. tauto.
Qed.

Lemma findItemsDifference_NoDup l s : NoDup l -> NoDup (findItemsDifference l s).
Proof. apply NoDup_filter. Qed.

(** set_union *)
Lemma set_union_nil_l l : set_union [] l = l.
Proof. destruct l; reflexivity. Qed.
Lemma set_union_nil_r l : set_union l [] = l.
Proof. destruct l; reflexivity. Qed.
Lemma set_union_cons x l1 y l2 :
  set_union (x :: l1) (y :: l2) =
  if x <? y then x :: set_union l1 (y :: l2)
  else if y <? x then y :: set_union (x :: l1) l2
  else x :: set_union l1 l2.
Proof. reflexivity. Qed.

Lemma set_union_spec l1 : StronglySorted Z.lt l1 -> forall l2, StronglySorted Z.lt l2 ->
  StronglySorted Z.lt (set_union l1 l2) /\
  (forall x, In x (set_union l1 l2) <-> In x l1 \/ In x l2).
Proof.
  induction 1 as [|x l1 H1 IH1 Hall1].
  - intros l2 H2. rewrite set_union_nil_l. split; auto. simpl; tauto.
  - induction 1 as [|y l2 H2 IH2 Hall2].
    + rewrite set_union_nil_r. split; [constructor; auto|]. simpl; tauto.
    + rewrite set_union_cons. rewrite Forall_forall in *.
      destruct (Z.ltb_spec x y); [|destruct (Z.ltb_spec y x)].
      * destruct (IH1 (y :: l2)) as [Hs Hin].
        { constructor; auto. now apply Forall_forall. }
        split.
        -- constructor; auto. apply Forall_forall. intros z Hz.
           apply Hin in Hz. destruct Hz as [Hz|[->|Hz]]; [auto|lia|].
           specialize (Hall2 _ Hz). lia.
        -- intros z. simpl. rewrite Hin. simpl. tauto.
      * destruct IH2 as [Hs Hin]. split.
        -- constructor; auto. apply Forall_forall. intros z Hz.
           apply Hin in Hz. destruct Hz as [[->|Hz]|Hz]; [lia| |auto].
           specialize (Hall1 _ Hz). lia.
        -- intros z. change (In z (y :: set_union (x :: l1) l2)) with
             (y = z \/ In z (set_union (x :: l1) l2)). rewrite Hin. simpl. tauto.
      * assert (x = y) as -> by lia.
        destruct (IH1 l2 H2) as [Hs Hin]. split.
        -- constructor; auto. apply Forall_forall. intros z Hz.
           apply Hin in Hz. destruct Hz as [Hz|Hz]; auto.
        -- intros z. simpl. rewrite Hin. tauto.
Qed.

Lemma union_spec a b : NoDup a -> NoDup b ->
  StronglySorted Z.lt (findItemsUnion a b) /\
  (forall x, In x (findItemsUnion a b) <-> In x a \/ In x b).
Proof.
  intros Ha Hb. unfold findItemsUnion.
  destruct (set_union_spec (sort a)) with (l2 := sort b) as [Hs Hin].
  - apply sorted_le_lt; [apply sort_sorted | now apply sort_NoDup].
  - apply sorted_le_lt; [apply sort_sorted | now apply sort_NoDup].
  - split; auto. intros x. rewrite Hin, !sort_In. tauto.
Qed.
