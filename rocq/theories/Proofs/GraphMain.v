(** Final forms of C01-C04. *)
From Coq Require Import List ZArith Bool Lia Arith Sorted.
From Verif Require Import Model.Base Model.Items Model.Graph Model.GraphOps
  Spec.GraphSpec Proofs.ListLemmas Proofs.ItemsLemmas Proofs.GraphLemmas Proofs.DependenceLemmas.
Import ListNotations.

Lemma allowed_all_app items ops1 ops2 : forall a,
  allowed_all items a (ops1 ++ ops2) -> allowed_all items a ops1.
Proof.
  induction ops1 as [|op l IH]; simpl; auto. intros a [H1 H2]. eauto.
Qed.

Lemma pos_at_items g i : Inv g -> ~ In i (items_all g) -> pos_at (g_pos g) i = Throw OutOfRange.
Proof.
  intros I H. destruct (pos_at (g_pos g) i) as [r|e| |] eqn:E.
  - apply (inv_pos g I) in E. apply nth_error_In in E. tauto.
  - clear I H. revert E. induction (g_pos g) as [|[k v] m IH]; simpl; [congruence|].
    destruct (k =? i)%Z; [discriminate|auto].
  - exfalso. clear I H. revert E. induction (g_pos g) as [|[k v] m IH]; simpl; [discriminate|].
    destruct (k =? i)%Z; [discriminate|auto].
  - exfalso. clear I H. revert E. induction (g_pos g) as [|[k v] m IH]; simpl; [discriminate|].
    destruct (k =? i)%Z; [discriminate|auto].
Qed.

Lemma graph_history items pre suf : NoDup items ->
  allowed_all items (a_start items) (pre ++ suf) ->
  exists g, g_run (graph_of_items items) pre = Ok g /\
    Rep g (fold_left a_step pre (a_start items)) /\ items_all g = items.
Proof.
  intros Hnd Hal. apply allowed_all_app in Hal.
  destruct (graph_of_items_Rep items Hnd) as [HR Hit].
  exact (g_run_Rep items pre _ _ HR Hit Hal).
Qed.

Lemma C01_main items pre suf : NoDup items ->
  allowed_all items (a_start items) (pre ++ suf) ->
  let a := fold_left a_step pre (a_start items) in
  exists g, g_run (graph_of_items items) pre = Ok g /\
    getItems g = a_items a /\
    g_nv g = Z.of_nat (length (a_items a)) /\
    a_edge_count a (g_ne g) /\
    (forall i, In i items -> exists l,
       findNeighbours g i = Ok l /\ a_neighbours a i l /\
       findDegree g i = Ok (Z.of_nat (length l))) /\
    (forall i, ~ In i items ->
       findNeighbours g i = Throw OutOfRange /\ findDegree g i = Throw OutOfRange).
Proof.
  intros Hnd Hal. destruct (graph_history items pre suf Hnd Hal) as (g & E & HR & Hit).
  exists g. split; auto. split; [apply HR|]. split; [now apply rep_numVertices|].
  split; [now apply rep_edge_count|]. split.
  - intros i Hi. rewrite <- Hit in Hi. destruct (rep_neighbours g _ i HR Hi) as (l & H1 & H2 & H3).
    eauto.
  - intros i Hi. rewrite <- Hit in Hi. unfold findNeighbours, findDegree.
    rewrite pos_at_items; auto. apply HR.
Qed.

Lemma C02_main items pre suf : NoDup items ->
  allowed_all items (a_start items) (pre ++ suf) ->
  exists g, g_run (graph_of_items items) pre = Ok g /\
    (isComplete g = true <-> a_complete (fold_left a_step pre (a_start items))).
Proof.
  intros Hnd Hal. destruct (graph_history items pre suf Hnd Hal) as (g & E & HR & Hit).
  exists g. split; auto. now apply isComplete_Rep.
Qed.

Lemma C03_main items ops i j : NoDup items -> allowed_all items (a_start items) ops ->
  let a := fold_left a_step ops (a_start items) in
  In i items -> ~ In i (a_items a) -> In j (a_items a) ->
  exists g nb n, g_run (graph_of_items items) (ops ++ [OpEdge i j]) = Ok g /\
    a_neighbours a i nb /\
    (forall x, In x (getItems g) <-> In x (a_items (a_revive a i j))) /\
    g_nv g = Z.of_nat (length (a_items (a_revive a i j))) /\
    a_edge_count (a_revive a i j) n /\
    (g_ne g = n - Z.of_nat (length nb))%Z.
Proof.
  intros Hnd Hal a Hi Hni Hj.
  destruct (graph_history items ops [] Hnd) as (g & E & HR & Hit); [now rewrite app_nil_r|].
  fold a in HR.
  destruct (addEdge_revive g a i j) as (g' & nb & E' & Hnb & Hnv & Hin & Hne); auto.
  { now rewrite Hit. }
  exists g', nb, (g_ne g + Z.of_nat (length nb) + (if existsb (Z.eqb j) nb then 0 else 1))%Z.
  split; [|split; [exact Hnb|split; [|split; [|split]]]].
  - unfold g_run in *. rewrite foldM_app, E. simpl. rewrite E'. reflexivity.
  - intros x. rewrite Hin. simpl. intuition.
  - rewrite Hnv, (rep_numVertices g a HR). simpl length. lia.
  - apply revive_count; auto.
    + eapply rep_sym; eauto.
    + eapply rep_irr; eauto.
    + now apply rep_edge_count.
  - lia.
Qed.

Lemma C04_main scopes : (forall s, In s scopes -> NoDup s) ->
  exists g, makeDependenceGraph scopes = Ok g /\
    StronglySorted Z.lt (getItems g) /\
    (forall x, In x (getItems g) <-> exists s, In s scopes /\ In x s) /\
    (forall x, In x (getItems g) -> exists l, findNeighbours g x = Ok l /\ NoDup l /\
       forall y, In y l <-> x <> y /\ exists s, In s scopes /\ In x s /\ In y s).
Proof.
  intros Hnd. destruct (makeDependenceGraph_Rep scopes Hnd) as (g & items & E & Hs & Hit & Hin & HR).
  exists g. rewrite (rep_items _ _ HR). simpl. split; auto. split; auto. split; auto.
  intros x Hx. rewrite <- Hit in Hx.
  destruct (rep_neighbours g _ x HR Hx) as (l & H1 & H2 & Hl1 & Hl2). exists l. split; auto.
  split; auto. intros y. rewrite Hl2. simpl. unfold dep_adj. split; [tauto|].
  intros H. split; auto. apply Hin. destruct H as (_ & s & H3 & _ & H4). eauto.
Qed.
