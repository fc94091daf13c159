From Coq Require Import List ZArith Bool Lia Arith Sorted.
From Verif Require Import Model.Base Model.Items Model.Graph Model.GraphOps
  Spec.GraphSpec Proofs.ListLemmas Proofs.ItemsLemmas Proofs.GraphLemmas.
Import ListNotations.

Lemma union_fold scopes : forall acc, StronglySorted Z.lt acc ->
  (forall s, In s scopes -> NoDup s) ->
  StronglySorted Z.lt (fold_left findItemsUnion scopes acc) /\
  forall x, In x (fold_left findItemsUnion scopes acc) <->
            In x acc \/ exists s, In s scopes /\ In x s.
Proof.
  induction scopes as [|s l IH]; intros acc Hs Hnd; simpl.
  - split; auto. intros x. split; auto. intros [|(? & [] & _)]; auto.
  - destruct (union_spec acc s) as [H1 H2]; [now apply sorted_lt_NoDup|apply Hnd; now left|].
    destruct (IH (findItemsUnion acc s) H1) as [H3 H4]; [intros; apply Hnd; now right|].
    split; auto. intros x. rewrite H4, H2. split.
    + intros [[|]|(t & Ht & Hx)]; eauto.
    + intros [|(t & [->|Ht] & Hx)]; eauto.
Qed.

Definition dep_adj (scopes : list (list Z)) (x y : Z) : Prop :=
  x <> y /\ exists s, In s scopes /\ In x s /\ In y s.

Lemma connect_fold scopes : forall g a, Rep g a -> (forall s, In s scopes -> NoDup s) ->
  (forall s, In s scopes -> incl s (a_items a)) ->
  exists g', foldM connect scopes g = Ok g' /\ items_all g' = items_all g /\
    g_verts g' = g_verts g /\
    Rep g' (mkA (a_items a) (fun x y => a_adj a x y \/ dep_adj scopes x y)).
Proof.
  induction scopes as [|s l IH]; intros g a HR Hnd Hincl; simpl.
  - exists g. do 3 (split; [reflexivity|]). eapply Rep_ext; [exact HR|reflexivity|].
    intros x y. simpl. unfold dep_adj. split; auto.
    intros [|(_ & s & [] & _)]; auto.
  - destruct (connect_Rep s g a HR) as (g1 & E1 & R1 & It1 & V1).
    { apply Hnd; now left. } { apply Hincl; now left. }
    rewrite E1. simpl.
    destruct (IH g1 (a_connect a s) R1) as (g2 & E2 & It2 & V2 & R2).
    { intros; apply Hnd; now right. } { intros; apply Hincl; now right. }
    exists g2. rewrite It2, V2. do 3 (split; [auto|]).
    eapply Rep_ext; [exact R2|reflexivity|]. intros x y. simpl. unfold dep_adj. split.
    + intros [[H|(H1 & H2 & H3)]|(H1 & t & H2 & H3 & H4)]; auto.
      * right. split; auto. exists s. intuition.
      * right. split; auto. exists t. intuition.
    + intros [H|(H1 & t & [->|H2] & H3 & H4)]; auto. right. split; eauto.
Qed.

Lemma makeDependenceGraph_Rep scopes : (forall s, In s scopes -> NoDup s) ->
  exists g items, makeDependenceGraph scopes = Ok g /\
    StronglySorted Z.lt items /\ items_all g = items /\
    (forall x, In x items <-> exists s, In s scopes /\ In x s) /\
    Rep g (mkA items (dep_adj scopes)).
Proof.
  intros Hnd. unfold makeDependenceGraph.
  destruct (union_fold scopes []) as [Hs Hin]; [constructor|auto|].
  set (items := fold_left findItemsUnion scopes []) in *.
  destruct (graph_of_items_Rep items) as [HR Hit]; [now apply sorted_lt_NoDup|].
  destruct (connect_fold scopes _ _ HR Hnd) as (g & E & It & V & R).
  { intros s Hs' x Hx. simpl. apply Hin. right. eauto. }
  exists g, items. split; auto. split; auto. split; [now rewrite It|]. split.
  - intros x. rewrite Hin. split; [|auto]. intros [[]|]; auto.
  - eapply Rep_ext; [exact R|reflexivity|]. intros x y. simpl. tauto.
Qed.
