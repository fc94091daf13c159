From Coq Require Import List ZArith Bool Lia Arith Permutation ZifyBool.
From Verif Require Import Model.Base Model.Items Model.Graph Model.GraphOps
  Spec.GraphSpec Proofs.ListLemmas.
Import ListNotations.

Definition nverts (g : graph) : nat := length (g_verts g).
Definition act (g : graph) (r : nat) : bool :=
  match nth_error (g_verts g) r with Some v => v_active v | None => false end.
Definition adjl (g : graph) (r : nat) : list nat := nth r (g_adj g) [].
Definition ldeg (g : graph) (r : nat) : nat := length (filter (act g) (adjl g r)).
Definition dsum (g : graph) : nat :=
  sumf (fun r => if act g r then ldeg g r else 0) (seq 0 (nverts g)).
Definition items_all (g : graph) : list Z := map v_item (g_verts g).
Definition itemof (g : graph) (r : nat) : Z := nth r (items_all g) 0%Z.

Record Inv (g : graph) : Prop := {
  inv_len : length (g_adj g) = nverts g;
  inv_pos : forall i r, pos_at (g_pos g) i = Ok r <-> nth_error (items_all g) r = Some i;
  inv_nd : forall r, NoDup (adjl g r);
  inv_lt : forall r w, In w (adjl g r) -> (w < nverts g)%nat;
  inv_irr : forall r, ~ In r (adjl g r);
  inv_sym : forall r w, In w (adjl g r) -> In r (adjl g w);
  inv_nv : g_nv g = Z.of_nat (length (filter (act g) (seq 0 (nverts g))));
  inv_ne : (2 * g_ne g = Z.of_nat (dsum g))%Z
}.

(** Relation to an abstract graph. *)
Record Rep (g : graph) (a : agraph) : Prop := {
  rep_inv : Inv g;
  rep_items : getItems g = a_items a;
  rep_adj : forall x y, a_adj a x y <->
     exists r w, nth_error (items_all g) r = Some x /\ nth_error (items_all g) w = Some y /\
                 In w (adjl g r)
}.

Lemma pos_at_det m i r1 r2 : pos_at m i = Ok r1 -> pos_at m i = Ok r2 -> r1 = r2.
Proof. congruence. Qed.

Lemma inv_items_inj g : Inv g -> forall r1 r2 x,
  nth_error (items_all g) r1 = Some x -> nth_error (items_all g) r2 = Some x -> r1 = r2.
Proof.
  intros I r1 r2 x H1 H2. apply (inv_pos g I) in H1, H2. congruence.
Qed.

Lemma inv_items_NoDup g : Inv g -> NoDup (items_all g).
Proof.
  intros I. apply NoDup_nth_error. intros i j Hi E.
  destruct (nth_error (items_all g) i) eqn:Ei.
  - symmetry in E. eapply inv_items_inj; eauto.
  - apply nth_error_None in Ei. lia.
Qed.

Lemma items_all_length g : length (items_all g) = nverts g.
Proof. apply map_length. Qed.

Lemma adjl_nth_error g r l : nth_error (g_adj g) r = Some l -> adjl g r = l.
Proof. intros H. unfold adjl. now apply nth_error_nth. Qed.

Lemma adjl_get g r : Inv g -> (r < nverts g)%nat -> nth_error (g_adj g) r = Some (adjl g r).
Proof.
  intros I H. rewrite <- (inv_len g I) in H. unfold adjl.
  apply nth_error_nth' with (d := []) in H. exact H.
Qed.

Lemma act_lt g r : act g r = true -> (r < nverts g)%nat.
Proof.
  unfold act. destruct (nth_error (g_verts g) r) eqn:E; [|discriminate].
  intros _. apply nth_error_Some. congruence.
Qed.

Lemma count_active_spec g ws : (forall w, In w ws -> (w < nverts g)%nat) ->
  count_active g ws = Ok (Z.of_nat (length (filter (act g) ws))).
Proof.
  induction ws as [|w ws IH]; intros H; [reflexivity|].
  cbn [count_active collect_active filter]. destruct (nth_error (g_verts g) w) as [v|] eqn:E.
  - rewrite (vec_get_Ok _ _ _ E); cbn [bind]. rewrite IH by (intros; apply H; now right).
    cbn [bind]. assert (Ha : act g w = v_active v) by (unfold act; now rewrite E).
    rewrite Ha. destruct (v_active v); f_equal. simpl length. lia.
  - apply nth_error_None in E. specialize (H w (or_introl eq_refl)).
    unfold nverts in H. lia.
Qed.

Lemma collect_active_spec g ws : (forall w, In w ws -> (w < nverts g)%nat) ->
  collect_active g ws = Ok (map (itemof g) (filter (act g) ws)).
Proof.
  induction ws as [|w ws IH]; intros H; [reflexivity|].
  cbn [count_active collect_active filter]. destruct (nth_error (g_verts g) w) as [v|] eqn:E.
  - rewrite (vec_get_Ok _ _ _ E); cbn [bind]. rewrite IH by (intros; apply H; now right).
    cbn [bind]. assert (Ha : act g w = v_active v) by (unfold act; now rewrite E).
    rewrite Ha. destruct (v_active v); f_equal. simpl. f_equal.
    unfold itemof, items_all. symmetry. apply nth_error_nth.
    now apply map_nth_error.
  - apply nth_error_None in E. specialize (H w (or_introl eq_refl)).
    unfold nverts in H. lia.
Qed.

Lemma nth_error_items_lt g r x : nth_error (items_all g) r = Some x -> (r < nverts g)%nat.
Proof. intros H. rewrite <- items_all_length. apply nth_error_Some. congruence. Qed.

Lemma findDegree_raw g i r : Inv g -> nth_error (items_all g) r = Some i ->
  findDegree g i = Ok (Z.of_nat (ldeg g r)).
Proof.
  intros I H. unfold findDegree. rewrite (proj2 (inv_pos g I i r) H). cbn [bind].
  rewrite (vec_get_Ok _ _ _ (adjl_get g r I (nth_error_items_lt _ _ _ H))). cbn [bind].
  apply count_active_spec. intros w. apply inv_lt; auto.
Qed.

Lemma findNeighbours_raw g i r : Inv g -> nth_error (items_all g) r = Some i ->
  findNeighbours g i = Ok (map (itemof g) (filter (act g) (adjl g r))).
Proof.
  intros I H. unfold findNeighbours. rewrite (proj2 (inv_pos g I i r) H). cbn [bind].
  rewrite (vec_get_Ok _ _ _ (adjl_get g r I (nth_error_items_lt _ _ _ H))). cbn [bind].
  apply collect_active_spec. intros w. apply inv_lt; auto.
Qed.

Lemma itemof_nth g r : (r < nverts g)%nat -> nth_error (items_all g) r = Some (itemof g r).
Proof.
  intros H. unfold itemof. apply nth_error_nth'. now rewrite items_all_length.
Qed.

Lemma itemof_inj g r w : Inv g -> (r < nverts g)%nat -> (w < nverts g)%nat ->
  itemof g r = itemof g w -> r = w.
Proof.
  intros I Hr Hw E. apply (inv_items_inj g I r w (itemof g r)).
  - now apply itemof_nth.
  - rewrite E. now apply itemof_nth.
Qed.

Lemma getItems_In g x : In x (getItems g) <->
  exists r, nth_error (items_all g) r = Some x /\ act g r = true.
Proof.
  unfold getItems, items_all, act. rewrite in_map_iff. split.
  - intros (v & <- & Hv). apply filter_In in Hv. destruct Hv as [Hv Ha].
    apply In_nth_error in Hv. destruct Hv as [r Hr]. exists r.
    rewrite Hr. split; auto. now apply map_nth_error.
  - intros (r & Hr & Ha). destruct (nth_error (g_verts g) r) as [v|] eqn:E; [|discriminate].
    exists v. rewrite (map_nth_error v_item _ _ E) in Hr. injection Hr as <-. split; auto.
    apply filter_In. split; auto. now apply nth_error_In in E.
Qed.

Lemma getItems_NoDup g : Inv g -> NoDup (getItems g).
Proof.
  intros I. apply inv_items_NoDup in I. unfold getItems, items_all in *.
  induction (g_verts g) as [|v l IH]; simpl in *; [constructor|].
  inversion I as [|? ? Hni Hnd]; subst.
  destruct (v_active v); simpl; auto. constructor; auto.
  intros H. apply Hni. rewrite in_map_iff in *. destruct H as (u & Hu & Hin).
  exists u. split; auto. now apply filter_In in Hin.
Qed.

Lemma NoDup_map_inj_in {A B} (f : A -> B) l :
  (forall x y, In x l -> In y l -> f x = f y -> x = y) -> NoDup l -> NoDup (map f l).
Proof.
  intros Hi. induction 1 as [|x l Hni Hnd IH]; simpl; constructor.
  - rewrite in_map_iff. intros (y & E & Hy). apply Hni.
    rewrite (Hi x y); auto; [now left | now right].
  - apply IH. intros; apply Hi; auto; now right.
Qed.

Lemma rep_neighbours g a i : Rep g a -> In i (items_all g) ->
  exists l, findNeighbours g i = Ok l /\ findDegree g i = Ok (Z.of_nat (length l)) /\
            a_neighbours a i l.
Proof.
  intros [I Hi Ha] Hin. apply In_nth_error in Hin. destruct Hin as [r Hr].
  eexists. split; [apply findNeighbours_raw; eauto|]. split.
  - rewrite (findDegree_raw g i r I Hr). unfold ldeg. now rewrite map_length.
  - split.
    + apply NoDup_map_inj_in; [|apply NoDup_filter, inv_nd; auto].
      intros u w Hu Hw E. apply filter_In in Hu, Hw.
      destruct Hu as [Hu _], Hw as [Hw _].
      apply (inv_lt g I) in Hu, Hw.
      eapply itemof_inj; eauto.
    + intros x. rewrite in_map_iff, <- Hi, getItems_In. split.
      * intros (w & <- & Hw). apply filter_In in Hw. destruct Hw as [Hw Haw].
        assert (w < nverts g)%nat by (eapply inv_lt; eauto). split.
        -- exists w. split; auto. now apply itemof_nth.
        -- apply Ha. exists r, w. auto using itemof_nth.
      * intros [(w & Hw & Haw) Hadj]. apply Ha in Hadj.
        destruct Hadj as (r' & w' & Hr' & Hw' & Hin).
        assert (r' = r) by (eapply inv_items_inj; eauto).
        assert (w' = w) by (eapply inv_items_inj; eauto). subst.
        exists w. split.
        -- unfold itemof. now apply nth_error_nth.
        -- apply filter_In. auto.
Qed.

(** ** Construction *)

Lemma nth_error_snoc {A} (l : list A) x r y :
  nth_error (l ++ [x]) r = Some y <->
  nth_error l r = Some y \/ (r = length l /\ y = x).
Proof.
  destruct (lt_eq_lt_dec r (length l)) as [[H|H]|H].
  - rewrite nth_error_app1 by auto. split; auto. intros [|[? ?]]; auto; lia.
  - subst. rewrite nth_error_app2, Nat.sub_diag by lia. simpl. split.
    + intros [= <-]. auto.
    + intros [E|[_ ->]]; auto. 
      assert (length l < length l)%nat; [|lia]. apply nth_error_Some. congruence.
  - split.
    + intros E. assert (r < length (l ++ [x]))%nat by (apply nth_error_Some; congruence).
      rewrite app_length in *. simpl in *. lia.
    + intros [E|[? ?]]; [|lia].
      assert (r < length l)%nat by (apply nth_error_Some; congruence). lia.
Qed.

Lemma seq_snoc n : seq 0 (n + 1) = seq 0 n ++ [n].
Proof. apply seq_app. Qed.

Lemma addNode_Inv g x : Inv g -> (forall r, adjl g r = []) -> (g_ne g = 0)%Z ->
  (forall r, (r < nverts g)%nat -> act g r = true) ->
  ~ In x (items_all g) ->
  Inv (addNode g x) /\ (forall r, adjl (addNode g x) r = []) /\ (g_ne (addNode g x) = 0)%Z /\
  (forall r, (r < nverts (addNode g x))%nat -> act (addNode g x) r = true) /\
  items_all (addNode g x) = items_all g ++ [x].
Proof.
  intros I Hadj Hne Hact Hx.
  assert (Hadj' : forall r, adjl (addNode g x) r = []).
  { intros r. unfold adjl, addNode; simpl.
    destruct (lt_eq_lt_dec r (length (g_adj g))) as [[H|H]|H].
    - rewrite app_nth1 by auto. apply Hadj.
    - subst. rewrite app_nth2, Nat.sub_diag by lia. reflexivity.
    - rewrite app_nth2 by lia. destruct (r - length (g_adj g))%nat eqn:E; [lia|].
      simpl. now destruct n. }
  assert (Hitems : items_all (addNode g x) = items_all g ++ [x]).
  { unfold items_all, addNode; simpl. now rewrite map_app. }
  assert (Hact' : forall r, (r < nverts (addNode g x))%nat -> act (addNode g x) r = true).
  { intros r Hr. unfold nverts, addNode in Hr; simpl in Hr. rewrite app_length in Hr.
    simpl in Hr. unfold act, addNode; simpl.
    destruct (Nat.lt_ge_cases r (length (g_verts g))) as [H|H].
    - rewrite nth_error_app1 by auto. apply Hact. exact H.
    - rewrite nth_error_app2 by auto. now replace (r - length (g_verts g))%nat with 0%nat by lia. }
  repeat split; auto.
  - unfold nverts, addNode; simpl. rewrite !app_length. simpl. f_equal. apply inv_len; auto.
  - rewrite Hitems, nth_error_snoc. unfold addNode; simpl.
    destruct (Z.eqb_spec x i) as [->|Hne'].
    + intros [= <-]. right. rewrite items_all_length. auto.
    + intros H. left. now apply inv_pos.
  - rewrite Hitems, nth_error_snoc. unfold addNode; simpl. intros [H|[-> ->]].
    + destruct (Z.eqb_spec x i) as [->|Hne'].
      * exfalso. apply Hx. now apply nth_error_In in H.
      * now apply inv_pos.
    + rewrite Z.eqb_refl. now rewrite items_all_length.
  - intros r. rewrite Hadj'. constructor.
  - intros r w. rewrite Hadj'. intros [].
  - intros r. rewrite Hadj'. intros [].
  - intros r w. rewrite Hadj'. intros [].
  - rewrite (filter_ext_in _ (fun _ => true)).
    + change (g_nv (addNode g x)) with (g_nv g + 1)%Z. rewrite (inv_nv g I).
      rewrite (filter_ext_in _ (fun _ => true) (seq 0 (nverts g))).
      2:{ intros r Hr. apply Hact. apply in_seq in Hr. lia. }
      assert (Ht : forall l : list nat, filter (fun _ => true) l = l)
        by (induction l; simpl; congruence).
      rewrite !Ht, !seq_length. unfold nverts, addNode; simpl. rewrite app_length. simpl. lia.
    + intros r Hr. apply Hact'. apply in_seq in Hr. lia.
  - change (g_ne (addNode g x)) with (g_ne g). rewrite Hne. unfold dsum.
    rewrite sumf_zero; auto. intros r _. unfold ldeg. rewrite Hadj'. simpl. now destruct (act _ _).
Qed.

Lemma emptyGraph_Inv : Inv emptyGraph.
Proof.
  assert (H : forall r, adjl emptyGraph r = []) by (intros [|r]; reflexivity).
  split; try reflexivity.
  - intros i r. simpl. split; [discriminate|]. unfold items_all; simpl. destruct r; discriminate.
  - intros r. rewrite H. constructor.
  - intros r w. rewrite H. intros [].
  - intros r. rewrite H. intros [].
  - intros r w. rewrite H. intros [].
Qed.

Lemma graph_of_items_aux l : forall g, Inv g -> (forall r, adjl g r = []) -> (g_ne g = 0)%Z ->
  (forall r, (r < nverts g)%nat -> act g r = true) ->
  NoDup (items_all g ++ l) ->
  let g' := fold_left addNode l g in
  Inv g' /\ (forall r, adjl g' r = []) /\
  (forall r, (r < nverts g')%nat -> act g' r = true) /\ items_all g' = items_all g ++ l.
Proof.
  induction l as [|x l IH]; intros g I Hadj Hne Hact Hnd; simpl.
  - rewrite app_nil_r. auto.
  - assert (~ In x (items_all g)).
    { apply NoDup_remove_2 in Hnd. intros H. apply Hnd. apply in_or_app. now left. }
    destruct (addNode_Inv g x) as (I' & Ha' & Hne' & Hact' & Hit); auto.
    destruct (IH (addNode g x)) as (I2 & Ha2 & Hact2 & Hit2); auto.
    + rewrite Hit, <- app_assoc. exact Hnd.
    + repeat (split; auto). rewrite Hit2, Hit, <- app_assoc. reflexivity.
Qed.

Lemma getItems_all g : (forall r, (r < nverts g)%nat -> act g r = true) ->
  getItems g = items_all g.
Proof.
  intros H. unfold getItems, items_all. f_equal.
  unfold nverts, act in H. induction (g_verts g) as [|v l IH]; simpl; auto.
  pose proof (H 0%nat) as H0. simpl in H0. rewrite H0 by lia. f_equal. apply IH.
  intros r Hr. apply (H (S r)). simpl. lia.
Qed.

Lemma graph_of_items_Rep items : NoDup items ->
  Rep (graph_of_items items) (a_start items) /\ items_all (graph_of_items items) = items.
Proof.
  intros Hnd. unfold graph_of_items.
  destruct (graph_of_items_aux items emptyGraph) as (I & Ha & Hact & Hit); auto.
  - apply emptyGraph_Inv.
  - intros [|r]; reflexivity.
  - intros r Hr. unfold nverts in Hr; simpl in Hr. lia.
  - simpl in Hit. split; auto. split; auto.
    + rewrite getItems_all; auto.
    + intros x y. simpl. split; [intros []|]. intros (r & w & _ & _ & H). now rewrite Ha in H.
Qed.

(** ** addEdge *)

Lemma activate_id g r v : nth_error (g_verts g) r = Some v -> v_active v = true ->
  activate g r = Ok g.
Proof. intros H Ha. unfold activate. rewrite (vec_get_Ok _ _ _ H). simpl. now rewrite Ha. Qed.

Lemma nth_upd {A} (l : list A) i x j d : (i < length l)%nat ->
  nth j (upd l i x) d = if Nat.eqb j i then x else nth j l d.
Proof.
  intros H. destruct (Nat.eqb_spec j i) as [->|Hne].
  - apply nth_error_nth. now apply nth_error_upd_eq.
  - destruct (nth_error l j) as [y|] eqn:E.
    + rewrite (nth_error_nth l j d E). apply nth_error_nth. now rewrite nth_error_upd_neq by auto.
    + apply nth_error_None in E. rewrite !nth_overflow; auto. now rewrite upd_length.
Qed.

Lemma act_act g r : act g r = true -> exists v, nth_error (g_verts g) r = Some v /\ v_active v = true.
Proof. unfold act. destruct (nth_error (g_verts g) r) as [v|]; [|discriminate]. eauto. Qed.

Lemma filter_snoc {A} (p : A -> bool) l x :
  filter p (l ++ [x]) = if p x then filter p l ++ [x] else filter p l.
Proof. rewrite filter_app. simpl. destruct (p x); auto. now rewrite app_nil_r. Qed.

Lemma addEdge_Rep g a i j : Rep g a -> i <> j -> In i (a_items a) -> In j (a_items a) ->
  exists g', addEdge g i j = Ok g' /\ Rep g' (a_edge a i j) /\ items_all g' = items_all g
    /\ g_verts g' = g_verts g.
Proof.
  intros [I Hi Ha] Hne HIi HIj. rewrite <- Hi in HIi, HIj.
  apply getItems_In in HIi, HIj.
  destruct HIi as (u & Hu & Hau), HIj as (v & Hv & Hav).
  assert (Huv : u <> v) by (intros ->; congruence).
  destruct (act_act _ _ Hau) as (vu & Hvu & Hvua), (act_act _ _ Hav) as (vv & Hvv & Hvva).
  unfold addEdge.
  rewrite (proj2 (inv_pos g I i u) Hu), (proj2 (inv_pos g I j v) Hv). cbn [bind].
  rewrite (activate_id g u vu); auto. cbn [bind].
  rewrite (activate_id g v vv); auto. cbn [bind].
  assert (Hlu : (u < nverts g)%nat) by eauto using act_lt.
  assert (Hlv : (v < nverts g)%nat) by eauto using act_lt.
  rewrite (vec_get_Ok _ _ _ (adjl_get g u I Hlu)). cbn [bind].
  destruct (existsb (Nat.eqb v) (adjl g u)) eqn:Eex.
  - (* edge already present *)
    apply existsb_eqb_In in Eex.
    exists g. repeat split; auto; try apply I.
    + simpl. rewrite Ha. intros [H|[[-> ->]|[-> ->]]]; auto.
      * exists u, v. auto.
      * exists v, u. repeat split; auto. now apply inv_sym.
    + intros H. simpl. left. now apply Ha.
  - assert (Hnin : ~ In v (adjl g u)) by (rewrite <- existsb_eqb_In; congruence).
    assert (Hnin' : ~ In u (adjl g v)) by (intros H; apply Hnin; now apply inv_sym).
    unfold boost_add_edge.
    rewrite (vec_get_Ok _ _ _ (adjl_get g u I Hlu)). cbn [bind].
    rewrite (vec_get_Ok _ v (adjl g v)).
    2:{ rewrite nth_error_upd_neq by auto. apply adjl_get; auto. }
    cbn [bind].
    set (adj' := upd (upd (g_adj g) u (adjl g u ++ [v])) v (adjl g v ++ [u])).
    set (g' := mkGraph (g_verts g) adj' (g_pos g) (g_nv g) (g_ne g + 1)).
    exists g'. split; [reflexivity|].
    assert (Hadj : forall r, adjl g' r =
              if Nat.eqb r v then adjl g v ++ [u]
              else if Nat.eqb r u then adjl g u ++ [v] else adjl g r).
    { intros r. unfold adjl at 1, g', adj'; simpl.
      rewrite nth_upd by (rewrite upd_length, (inv_len g I); auto).
      rewrite nth_upd by (rewrite (inv_len g I); auto). reflexivity. }
    assert (Hact : forall r, act g' r = act g r) by reflexivity.
    assert (Hin : forall r w, In w (adjl g' r) <->
              In w (adjl g r) \/ (r = u /\ w = v) \/ (r = v /\ w = u)).
    { intros r w. rewrite Hadj.
      destruct (Nat.eqb_spec r v) as [->|]; [|destruct (Nat.eqb_spec r u) as [->|]].
      - rewrite in_app_iff. simpl. intuition; try lia; subst; auto.
      - rewrite in_app_iff. simpl. intuition; try lia; subst; auto.
      - intuition; try lia. }
    assert (Hitems : items_all g' = items_all g) by reflexivity.
    split; [|split; reflexivity]. split; auto.
    + split; try (apply I).
      * unfold g', adj'; simpl. rewrite !upd_length. apply I.
      * intros r. rewrite Hadj.
        destruct (Nat.eqb_spec r v) as [->|]; [|destruct (Nat.eqb_spec r u) as [->|]].
        -- eapply Permutation_NoDup; [apply Permutation_cons_append|].
           constructor; auto. apply I.
        -- eapply Permutation_NoDup; [apply Permutation_cons_append|].
           constructor; auto. apply I.
        -- apply I.
      * intros r w. rewrite Hin. change (nverts g') with (nverts g).
        intros [H|[[_ ->]|[_ ->]]]; auto. eapply inv_lt; eauto.
      * intros r. rewrite Hin. intros [H|[[? ?]|[? ?]]]; try congruence.
        eapply inv_irr; eauto.
      * intros r w. rewrite !Hin. intros [H|[[? ?]|[? ?]]]; auto.
        left. now apply inv_sym.
      * change (g_ne g') with (g_ne g + 1)%Z.
        rewrite Z.mul_add_distr_l, (inv_ne g I).
        change (nverts g') with (nverts g).
        assert (Hs : dsum g' = dsum g + (1 + 1)).
        { unfold dsum. change (nverts g') with (nverts g).
          rewrite (sumf_ext _ (fun r => (if act g r then ldeg g r else 0) +
              ((if Nat.eqb r u then 1 else 0) + (if Nat.eqb r v then 1 else 0)))).
          - rewrite !sumf_add. f_equal.
            rewrite !sumf_indicator by apply seq_NoDup.
            assert (Hex : forall w, (w < nverts g)%nat -> existsb (Nat.eqb w) (seq 0 (nverts g)) = true).
            { intros w Hw. apply existsb_eqb_In, in_seq. lia. }
            rewrite !Hex by auto. reflexivity.
          - intros r _. rewrite Hact. unfold ldeg.
            rewrite (filter_ext _ _ Hact), Hadj.
            destruct (Nat.eqb_spec r v) as [->|]; [|destruct (Nat.eqb_spec r u) as [->|]].
            + rewrite Hav, filter_snoc, Hau, app_length.
              destruct (Nat.eqb_spec v u); [congruence|]. simpl. lia.
            + rewrite Hau, filter_snoc, Hav, app_length. simpl. lia.
            + simpl. destruct (act g r); lia. }
        rewrite Hs. lia.
    + intros x y. simpl. rewrite Hitems. split.
      * rewrite Ha. intros [(r & w & Hr & Hw & H)|[[-> ->]|[-> ->]]].
        -- exists r, w. rewrite Hin. auto.
        -- exists u, v. rewrite Hin. auto 6.
        -- exists v, u. rewrite Hin. auto 7.
      * intros (r & w & Hr & Hw & H). rewrite Hin in H.
        destruct H as [H|[[-> ->]|[-> ->]]].
        -- left. apply Ha. eauto 6.
        -- right; left. split; congruence.
        -- right; right. split; congruence.
Qed.

(** Equality of abstract graphs up to the adjacency relation's extension. *)
Lemma Rep_ext g a b : Rep g a -> a_items a = a_items b ->
  (forall x y, a_adj a x y <-> a_adj b x y) -> Rep g b.
Proof.
  intros [I Hi Ha] E H. split; auto; [congruence|]. intros x y. rewrite <- H. apply Ha.
Qed.

Lemma connect_inner items : forall g a i, Rep g a -> In i (a_items a) ->
  incl items (a_items a) -> ~ In i items ->
  exists g', foldM (fun h j => addEdge h i j) items g = Ok g' /\
    Rep g' (mkA (a_items a) (fun x y => a_adj a x y \/ (x = i /\ In y items) \/ (y = i /\ In x items)))
    /\ items_all g' = items_all g /\ g_verts g' = g_verts g.
Proof.
  induction items as [|j items IH]; intros g a i HR Hi Hincl Hni; simpl.
  - exists g. split; auto. split; auto. eapply Rep_ext; [exact HR|reflexivity|].
    simpl. intuition.
  - destruct (addEdge_Rep g a i j) as (g1 & E1 & R1 & It1 & V1); auto.
    + intros ->. apply Hni. now left.
    + apply Hincl. now left.
    + rewrite E1. cbn [bind].
      destruct (IH g1 (a_edge a i j) i) as (g2 & E2 & R2 & It2 & V2); auto.
      * intros x Hx. apply Hincl. now right.
      * intros H. apply Hni. now right.
      * exists g2. split; auto. split; [|split; congruence].
        eapply Rep_ext; [exact R2|reflexivity|].
        intros x y. simpl. intuition; subst; auto.
Qed.

Lemma connect_Rep items : forall g a, Rep g a -> NoDup items -> incl items (a_items a) ->
  exists g', connect g items = Ok g' /\ Rep g' (a_connect a items) /\ items_all g' = items_all g
   /\ g_verts g' = g_verts g.
Proof.
  induction items as [|i items IH]; intros g a HR Hnd Hincl; simpl.
  - exists g. split; auto. split; auto. eapply Rep_ext; [exact HR|reflexivity|].
    simpl. intuition.
  - inversion Hnd as [|? ? Hni Hnd']; subst.
    destruct (connect_inner items g a i) as (g1 & E1 & R1 & It1 & V1); auto.
    + apply Hincl. now left.
    + intros x Hx. apply Hincl. now right.
    + rewrite E1. cbn [bind].
      destruct (IH g1 _ R1) as (g2 & E2 & R2 & It2 & V2); auto.
      { intros x Hx. apply Hincl. now right. }
      exists g2. split; auto. split; [|split; congruence].
      eapply Rep_ext; [exact R2|reflexivity|].
      intros x y. simpl. split.
      * intros [[H|[[-> H]|[-> H]]]|(H1 & H2 & H3)]; auto.
        -- right. split; [|split]; auto. intros ->. auto.
        -- right. split; [|split]; auto. intros ->. auto.
      * intros [H|(H1 & [->|H2] & [->|H3])]; auto; try congruence.
Qed.

(** ** removeNode *)

Lemma filter_upd_verts g r v : nth_error (g_verts g) r = Some v ->
  NoDup (items_all g) ->
  map v_item (filter v_active (upd (g_verts g) r (mkVertex (v_item v) false))) =
  filter (fun x => negb (x =? v_item v)%Z) (map v_item (filter v_active (g_verts g))).
Proof.
  unfold items_all. revert r.
  induction (g_verts g) as [|w l IH]; intros [|r] H Hnd; simpl in *; try discriminate.
  - injection H as ->. inversion Hnd as [|? ? Hni Hnd']; subst.
    assert (Hl : filter (fun x => negb (x =? v_item v)%Z) (map v_item (filter v_active l)) =
                 map v_item (filter v_active l)).
    { clear -Hni. induction l as [|u l IHl]; simpl in *; auto.
      destruct (v_active u); simpl; [|apply IHl; tauto].
      destruct (Z.eqb_spec (v_item u) (v_item v)); [exfalso; auto|]. simpl. f_equal.
      apply IHl. tauto. }
    destruct (v_active v); simpl.
    + rewrite Z.eqb_refl. simpl. now rewrite Hl.
    + now rewrite Hl.
  - inversion Hnd as [|? ? Hni Hnd']; subst.
    destruct (v_active w); simpl; [|now apply IH].
    destruct (Z.eqb_spec (v_item w) (v_item v)) as [E|].
    + exfalso. apply Hni. rewrite E. apply in_map. now apply nth_error_In in H.
    + simpl. f_equal. now apply IH.
Qed.

Lemma items_all_upd g r v : nth_error (g_verts g) r = Some v ->
  map v_item (upd (g_verts g) r (mkVertex (v_item v) false)) = items_all g.
Proof.
  intros H. rewrite upd_map. simpl. apply upd_same. unfold items_all. now apply map_nth_error.
Qed.

Lemma filter_notin_id l i : ~ In i l -> filter (fun x => negb (x =? i)%Z) l = l.
Proof.
  induction l as [|x l IH]; simpl; intros H; auto.
  destruct (Z.eqb_spec x i); [tauto|]. simpl. f_equal. tauto.
Qed.

Lemma length_filter_swap (p : nat -> bool) (l : list nat) n :
  NoDup l -> (forall w, In w l -> (w < n)%nat) ->
  length (filter p l) = sumf (fun r => if p r then (if existsb (Nat.eqb r) l then 1 else 0) else 0) (seq 0 n).
Proof.
  intros Hnd Hlt.
  rewrite (sumf_ext _ (fun r => if p r && existsb (Nat.eqb r) l then 1 else 0)).
  2:{ intros r _. destruct (p r); auto. }
  rewrite sumf_filter. apply NoDup_ext_length.
  - now apply NoDup_filter.
  - apply NoDup_filter, seq_NoDup.
  - intros w. rewrite !filter_In, in_seq, andb_true_iff, existsb_eqb_In. split.
    + intros [H1 H2]. specialize (Hlt _ H1). split; [lia|tauto].
    + tauto.
Qed.

Lemma filter_neq_length (u : nat) (l : list nat) : NoDup l ->
  (length (filter (fun w => negb (Nat.eqb w u)) l) + (if existsb (Nat.eqb u) l then 1 else 0) = length l)%nat.
Proof.
  induction 1 as [|x l Hni Hnd IH]; simpl; auto.
  rewrite (Nat.eqb_sym u x).
  destruct (Nat.eqb_spec x u) as [->|]; simpl.
  - destruct (existsb (Nat.eqb u) l) eqn:E; [apply existsb_eqb_In in E; tauto|]. lia.
  - lia.
Qed.

Lemma removeNode_Rep g a i : Rep g a -> In i (items_all g) ->
  exists g', removeNode g i = Ok g' /\ Rep g' (a_remove a i) /\ items_all g' = items_all g
   /\ length (g_verts g') = length (g_verts g).
Proof.
  intros [I Hi Ha] Hin. apply In_nth_error in Hin. destruct Hin as [u Hu].
  pose proof (nth_error_items_lt _ _ _ Hu) as Hlu.
  unfold removeNode. rewrite (proj2 (inv_pos g I i u) Hu). cbn [bind].
  destruct (nth_error (g_verts g) u) as [v|] eqn:Ev.
  2:{ apply nth_error_None in Ev. unfold nverts in Hlu. lia. }
  assert (Hvi : v_item v = i).
  { unfold items_all in Hu. rewrite (map_nth_error v_item _ _ Ev) in Hu. congruence. }
  rewrite (vec_get_Ok _ _ _ Ev). cbn [bind].
  destruct (v_active v) eqn:Eact.
  - rewrite (findDegree_raw g i u I Hu). cbn [bind].
    set (g' := mkGraph _ _ _ _ _). exists g'. split; [reflexivity|].
    assert (Hnv : nverts g' = nverts g) by (unfold nverts, g'; simpl; now rewrite upd_length).
    assert (Hact : forall r, act g' r = act g r && negb (Nat.eqb r u)).
    { intros r. unfold act, g'; simpl. destruct (Nat.eqb_spec r u) as [->|].
      - rewrite nth_error_upd_eq by exact Hlu. simpl. now rewrite andb_false_r.
      - rewrite nth_error_upd_neq by auto. now rewrite andb_true_r. }
    assert (Hitems : items_all g' = items_all g) by (apply items_all_upd; auto).
    assert (Hau : act g u = true) by (unfold act; now rewrite Ev).
    split; [|split; [exact Hitems|exact Hnv]]. split.
    + split; try (apply I).
      * rewrite Hnv. apply I.
      * intros j r. rewrite Hitems. apply I.
      * intros r w. rewrite Hnv. change (adjl g' r) with (adjl g r). apply I.
      * change (g_nv g') with (g_nv g - 1)%Z. rewrite Hnv, (inv_nv g I).
        assert (Hact' : forall r, act g' r = negb (Nat.eqb r u) && act g r)
          by (intros; rewrite Hact; apply andb_comm).
        rewrite (filter_ext _ _ Hact'), <- filter_filter.
        assert (Hnd : NoDup (filter (act g) (seq 0 (nverts g)))) by apply NoDup_filter, seq_NoDup.
        pose proof (filter_neq_length u _ Hnd) as HL.
        assert (existsb (Nat.eqb u) (filter (act g) (seq 0 (nverts g))) = true) as Hex.
        { apply existsb_eqb_In, filter_In. split; auto. apply in_seq. lia. }
        rewrite Hex in HL. lia.
      * change (g_ne g') with (g_ne g - Z.of_nat (ldeg g u))%Z.
        rewrite Z.mul_sub_distr_l, (inv_ne g I).
        assert (Hs : (dsum g' + (ldeg g u + ldeg g u) = dsum g)%nat); [|lia].
        unfold dsum. rewrite Hnv.
        (* contribution of u *)
        assert (H1 : ldeg g u = sumf (fun r => if Nat.eqb r u then ldeg g u else 0) (seq 0 (nverts g))).
        { rewrite (sumf_ext _ (fun r => ldeg g u * (if Nat.eqb r u then 1 else 0))).
          - clear -Hlu.
            assert (forall c l, sumf (fun r => c * (if Nat.eqb r u then 1 else 0)) l =
                     c * sumf (fun r => if Nat.eqb r u then 1 else 0) l)%nat as ->.
            { intros c l. induction l; simpl; lia. }
            rewrite sumf_indicator by apply seq_NoDup.
            assert (existsb (Nat.eqb u) (seq 0 (nverts g)) = true) as ->; [|lia].
            apply existsb_eqb_In, in_seq. lia.
          - intros r _. destruct (Nat.eqb r u); lia. }
        assert (H2 : ldeg g u = sumf (fun r => if act g r then
                   (if existsb (Nat.eqb r) (adjl g u) then 1 else 0) else 0) (seq 0 (nverts g))).
        { unfold ldeg. apply length_filter_swap; [apply I|]. intros w. apply I; auto. }
        rewrite H2 at 2. rewrite H1 at 1. rewrite <- !sumf_add.
        apply sumf_ext. intros r Hr. rewrite Hact.
        assert (Hl : ldeg g' r = length (filter (fun w => negb (Nat.eqb w u)) (filter (act g) (adjl g r)))).
        { unfold ldeg. change (adjl g' r) with (adjl g r). rewrite filter_filter.
          f_equal. apply filter_ext. intros w. rewrite Hact. apply andb_comm. }
        assert (Hnd : NoDup (filter (act g) (adjl g r))) by apply NoDup_filter, (inv_nd g I).
        pose proof (filter_neq_length u _ Hnd) as HL. rewrite <- Hl in HL.
        assert (Hex : existsb (Nat.eqb u) (filter (act g) (adjl g r)) = existsb (Nat.eqb r) (adjl g u)).
        { apply eq_true_iff_eq. rewrite !existsb_eqb_In, filter_In. split.
          - intros [H _]. now apply inv_sym.
          - intros H. split; auto. now apply inv_sym. }
        rewrite Hex in HL. fold (ldeg g r) in HL.
        destruct (Nat.eqb_spec r u) as [->|].
        -- rewrite Hau. simpl. destruct (existsb (Nat.eqb u) (adjl g u)) eqn:E; [|lia].
           apply existsb_eqb_In in E. now apply inv_irr in E.
        -- rewrite andb_true_r. destruct (act g r); simpl; lia.
    + unfold getItems, g'; simpl. rewrite filter_upd_verts; auto using inv_items_NoDup.
      rewrite Hvi. f_equal. exact Hi.
    + intros x y. simpl. rewrite Hitems. apply Ha.
  - exists g. repeat (split; auto).
    simpl. rewrite filter_notin_id; auto. rewrite <- Hi, getItems_In.
    intros (r & Hr & Har). assert (r = u) by (eapply inv_items_inj; eauto). subst r.
    unfold act in Har. rewrite Ev in Har. congruence.
Qed.

(** ** Counting and completeness *)

Lemma dsum_bound g : Inv g -> forall r, act g r = true ->
  (ldeg g r + 1 <= length (filter (act g) (seq 0 (nverts g))))%nat.
Proof.
  intros I r Hr.
  change (length (filter (act g) (adjl g r)) + 1 <= length (filter (act g) (seq 0 (nverts g))))%nat.
  rewrite Nat.add_1_r.
  change (S (length (filter (act g) (adjl g r)))) with (length (r :: filter (act g) (adjl g r))).
  apply NoDup_incl_length.
  - constructor; [|apply NoDup_filter, I]. rewrite filter_In. intros [H _]. now apply (inv_irr g I) in H.
  - intros w [<-|Hw].
    + apply filter_In. split; auto. apply in_seq. apply act_lt in Hr. lia.
    + apply filter_In in Hw. destruct Hw as [Hw Ha]. apply filter_In. split; auto.
      apply in_seq. apply (inv_lt g I) in Hw. lia.
Qed.

Lemma dsum_active g : dsum g = sumf (ldeg g) (filter (act g) (seq 0 (nverts g))).
Proof.
  unfold dsum. induction (seq 0 (nverts g)) as [|r l IH]; simpl; auto.
  rewrite IH. destruct (act g r); simpl; lia.
Qed.

Lemma complete_iff_deg g : Inv g ->
  isComplete g = true <->
  forall r, act g r = true -> (ldeg g r + 1 = length (filter (act g) (seq 0 (nverts g))))%nat.
Proof.
  intros I. unfold isComplete. rewrite (inv_nv g I).
  set (n := length (filter (act g) (seq 0 (nverts g)))).
  pose proof (inv_ne g I) as Hne. rewrite dsum_active in Hne.
  pose proof (dsum_bound g I) as Hb. fold n in Hb.
  rewrite Z.eqb_eq.
  assert (Hq : Z.quot (Z.of_nat n * (Z.of_nat n - 1)) 2 = g_ne g <->
               (Z.of_nat n * (Z.of_nat n - 1) = 2 * g_ne g)%Z).
  { assert (Hev : exists k, (Z.of_nat n * (Z.of_nat n - 1) = 2 * k)%Z).
    { destruct (Z.Even_or_Odd (Z.of_nat n)) as [[k Hk]|[k Hk]].
      - exists (k * (Z.of_nat n - 1))%Z. rewrite Hk at 1. ring.
      - exists (Z.of_nat n * k)%Z. replace (Z.of_nat n - 1)%Z with (2 * k)%Z by lia. ring. }
    destruct Hev as [k Hk]. rewrite Hk.
    rewrite Z.mul_comm, Z.quot_mul by lia. lia. }
  split.
  - intros H r Hr. symmetry in H. apply Hq in H.
    assert (Heq : sumf (fun r => ldeg g r + 1) (filter (act g) (seq 0 (nverts g))) =
                  sumf (fun _ => n) (filter (act g) (seq 0 (nverts g)))).
    { rewrite sumf_add, !sumf_const. fold n. nia. }
    apply (sumf_le_eq _ _ _ (fun x h => Hb x (proj2 (proj1 (filter_In _ _ _) h))) Heq).
    apply filter_In. split; auto. apply in_seq. apply act_lt in Hr. lia.
  - intros H. symmetry. apply Hq.
    assert (Heq : sumf (fun r => ldeg g r + 1) (filter (act g) (seq 0 (nverts g))) =
                  sumf (fun _ => n) (filter (act g) (seq 0 (nverts g)))).
    { apply sumf_ext. intros r Hr. apply H. now apply filter_In in Hr. }
    rewrite sumf_add, !sumf_const in Heq. fold n in Heq. nia.
Qed.

Lemma isComplete_Rep g a : Rep g a -> isComplete g = true <-> a_complete a.
Proof.
  intros [I Hi Ha]. rewrite complete_iff_deg by auto. split.
  - intros H x y Hx Hy Hxy. rewrite <- Hi in Hx, Hy.
    apply getItems_In in Hx, Hy. destruct Hx as (r & Hr & Har), Hy as (w & Hw & Haw).
    apply Ha. exists r, w. repeat split; auto.
    specialize (H r Har).
    assert (Hincl : incl (filter (act g) (seq 0 (nverts g))) (r :: filter (act g) (adjl g r))).
    { apply NoDup_length_incl.
      - constructor; [|apply NoDup_filter, I]. rewrite filter_In.
        intros [H' _]. now apply (inv_irr g I) in H'.
      - simpl. unfold ldeg in H. lia.
      - intros z [<-|Hz].
        + apply filter_In. split; auto. apply in_seq. apply act_lt in Har. lia.
        + apply filter_In in Hz. destruct Hz as [Hz Hza]. apply filter_In. split; auto.
          apply in_seq. apply (inv_lt g I) in Hz. lia. }
    assert (Hww : In w (filter (act g) (seq 0 (nverts g)))).
    { apply filter_In. split; auto. apply in_seq. apply act_lt in Haw. lia. }
    apply Hincl in Hww. destruct Hww as [->|Hww]; [congruence|]. now apply filter_In in Hww.
  - intros H r Hr.
    apply Nat.le_antisymm; [now apply dsum_bound|].
    rewrite Nat.add_1_r. unfold ldeg.
    change (S (length (filter (act g) (adjl g r)))) with (length (r :: filter (act g) (adjl g r))).
    apply NoDup_incl_length; [apply NoDup_filter, seq_NoDup|].
    intros w Hw. apply filter_In in Hw. destruct Hw as [_ Haw].
    destruct (Nat.eq_dec r w) as [->|Hne]; [now left|]. right. apply filter_In. split; auto.
    pose proof (act_lt _ _ Hr) as Hlr. pose proof (act_lt _ _ Haw) as Hlw.
    destruct (proj1 (Ha (itemof g r) (itemof g w))) as (r' & w' & Hr' & Hw' & Hin).
    + apply H.
      * rewrite <- Hi. apply getItems_In. exists r. auto using itemof_nth.
      * rewrite <- Hi. apply getItems_In. exists w. auto using itemof_nth.
      * intros E. apply Hne. eapply itemof_inj; eauto.
    + assert (r' = r) by (eapply inv_items_inj; eauto using itemof_nth).
      assert (w' = w) by (eapply inv_items_inj; eauto using itemof_nth). now subst.
Qed.

(** Number of ordered adjacent pairs = 2 * number of unordered pairs. *)
Definition opairs (g : graph) : list (Z * Z) :=
  flat_map (fun r => map (fun w => (itemof g r, itemof g w)) (filter (act g) (adjl g r)))
           (filter (act g) (seq 0 (nverts g))).

Lemma opairs_length g : length (opairs g) = dsum g.
Proof.
  rewrite dsum_active. unfold opairs.
  induction (filter (act g) (seq 0 (nverts g))) as [|r l IH]; simpl; auto.
  rewrite app_length, map_length, IH. reflexivity.
Qed.

Lemma NoDup_app_intro {A} (l1 l2 : list A) : NoDup l1 -> NoDup l2 ->
  (forall x, In x l1 -> In x l2 -> False) -> NoDup (l1 ++ l2).
Proof.
  induction 1 as [|x l1 Hni Hnd IH]; simpl; intros H2 Hd; auto. constructor.
  - rewrite in_app_iff. intros [|]; [tauto|]. eapply Hd; eauto.
  - apply IH; auto. intros y Hy. apply Hd. now right.
Qed.

Lemma opairs_NoDup g : Inv g -> NoDup (opairs g).
Proof.
  intros I. unfold opairs.
  assert (Hnd : NoDup (filter (act g) (seq 0 (nverts g)))) by apply NoDup_filter, seq_NoDup.
  assert (Hlt : forall r, In r (filter (act g) (seq 0 (nverts g))) -> (r < nverts g)%nat).
  { intros r Hr. apply filter_In in Hr. destruct Hr as [Hr _]. apply in_seq in Hr. lia. }
  induction Hnd as [|r l Hni Hnd IH]; simpl; [constructor|].
  apply NoDup_app_intro.
  - apply NoDup_map_inj_in; [|apply NoDup_filter, I].
    intros x y Hx Hy E. injection E as E.
    apply filter_In in Hx, Hy. destruct Hx as [Hx _], Hy as [Hy _].
    apply (inv_lt g I) in Hx, Hy. eapply itemof_inj; eauto.
  - apply IH. intros; apply Hlt; now right.
  - intros [x y] H1 H2. apply in_map_iff in H1. destruct H1 as (w & E1 & Hw).
    injection E1 as <- <-. apply in_flat_map in H2. destruct H2 as (r' & Hr' & H2).
    apply in_map_iff in H2. destruct H2 as (w' & E2 & Hw'). injection E2 as E2 E3.
    assert (r' = r).
    { eapply itemof_inj; eauto; apply Hlt; [now right|now left]. }
    subst. tauto.
Qed.

Lemma opairs_In g a x y : Rep g a ->
  In (x, y) (opairs g) <-> In x (a_items a) /\ In y (a_items a) /\ a_adj a x y.
Proof.
  intros [I Hi Ha]. unfold opairs. rewrite in_flat_map, <- Hi, !getItems_In, Ha. split.
  - intros (r & Hr & H). apply in_map_iff in H. destruct H as (w & E & Hw).
    injection E as <- <-. apply filter_In in Hr, Hw. destruct Hr as [Hr Har], Hw as [Hw Haw].
    apply in_seq in Hr. pose proof (inv_lt g I _ _ Hw). repeat split.
    + exists r. split; auto. apply itemof_nth. lia.
    + exists w. auto using itemof_nth.
    + exists r, w. repeat split; auto; apply itemof_nth; lia.
  - intros ((r & Hr & Har) & (w & Hw & Haw) & (r' & w' & Hr' & Hw' & H)).
    assert (r' = r) by (eapply inv_items_inj; eauto).
    assert (w' = w) by (eapply inv_items_inj; eauto). subst.
    exists r. split.
    + apply filter_In. split; auto. apply in_seq. apply act_lt in Har. lia.
    + apply in_map_iff. exists w. split; [|apply filter_In; auto].
      unfold itemof. f_equal; now apply nth_error_nth.
Qed.

Lemma rep_sym g a : Rep g a -> forall x y, a_adj a x y -> a_adj a y x.
Proof.
  intros [I Hi Ha] x y H. apply Ha in H. destruct H as (r & w & Hr & Hw & H).
  apply Ha. exists w, r. repeat split; auto. now apply inv_sym.
Qed.

Lemma rep_irr g a : Rep g a -> forall x, ~ a_adj a x x.
Proof.
  intros [I Hi Ha] x H. apply Ha in H. destruct H as (r & w & Hr & Hw & H).
  assert (r = w) by (eapply inv_items_inj; eauto). subst. now apply (inv_irr g I) in H.
Qed.

Lemma rep_edge_count g a : Rep g a -> a_edge_count a (g_ne g).
Proof.
  intros HR. pose proof (rep_inv _ _ HR) as I.
  set (P := filter (fun p => (fst p <? snd p)%Z) (opairs g)).
  set (Q := filter (fun p => negb (fst p <? snd p)%Z) (opairs g)).
  exists P. split; [apply NoDup_filter, opairs_NoDup; auto|]. split.
  - intros x y. unfold P. rewrite filter_In, (opairs_In g a x y HR). simpl.
    rewrite Z.ltb_lt. tauto.
  - assert (HQ : length Q = length P).
    { transitivity (length (map (fun p => (snd p, fst p)) P)); [|apply map_length].
      apply NoDup_ext_length.
      - apply NoDup_filter, opairs_NoDup; auto.
      - apply NoDup_map_inj_in; [|apply NoDup_filter, opairs_NoDup; auto].
        intros [? ?] [? ?] _ _ E. simpl in E. congruence.
      - intros [x y]. rewrite in_map_iff. unfold P, Q. rewrite filter_In, (opairs_In g a x y HR).
        simpl. split.
        + intros [(Hx & Hy & Hxy) Hlt]. exists (y, x). split; auto.
          apply filter_In. rewrite (opairs_In g a y x HR). simpl.
          split; [split; [|split]; auto; eapply rep_sym; eauto|].
          assert (x <> y) by (intros ->; eapply rep_irr; eauto). lia.
        + intros ([x' y'] & E & H). simpl in E. injection E as -> ->.
          apply filter_In in H. rewrite (opairs_In g a y x HR) in H. simpl in H.
          destruct H as [(Hx & Hy & Hxy) Hlt].
          split; [split; [|split]; auto; eapply rep_sym; eauto|]. lia. }
    pose proof (inv_ne g I) as Hne. rewrite <- opairs_length in Hne.
    assert (HPQ : (length P + length Q = length (opairs g))%nat).
    { unfold P, Q. clear. induction (opairs g) as [|p l IH]; simpl; auto.
      destruct (fst p <? snd p)%Z; simpl; lia. }
    lia.
Qed.

Lemma rep_numVertices g a : Rep g a -> g_nv g = Z.of_nat (length (a_items a)).
Proof.
  intros [I Hi Ha]. rewrite (inv_nv g I), <- Hi. f_equal. unfold getItems.
  rewrite map_length.
  assert (H : forall (l : list vertex) k,
    length (filter (fun r => match nth_error l (r - k) with Some v => v_active v | None => false end) (seq k (length l)))
    = length (filter v_active l)).
  { induction l as [|v l IH]; intros k; auto.
    cbn [seq length filter]. rewrite Nat.sub_diag. cbn [nth_error].
    assert (E : length (filter (fun r => match nth_error (v :: l) (r - k) with
        | Some v0 => v_active v0 | None => false end) (seq (S k) (length l))) = length (filter v_active l)).
    { rewrite <- (IH (S k)). f_equal. apply filter_ext_in. intros r Hr. apply in_seq in Hr.
      replace (r - k)%nat with (S (r - S k)) by lia. reflexivity. }
    destruct (v_active v); cbn [length]; rewrite E; reflexivity. }
  rewrite <- (H (g_verts g) 0%nat). f_equal. apply filter_ext. intros r.
  unfold act. now rewrite Nat.sub_0_r.
Qed.

(** ** Histories *)

Lemma g_step_Rep items0 g a op : Rep g a -> items_all g = items0 -> allowed items0 a op ->
  exists g', g_step g op = Ok g' /\ Rep g' (a_step a op) /\ items_all g' = items0.
Proof.
  intros HR Hit Hal. destruct op as [i j|l|i]; simpl in *.
  - destruct Hal as (Hne & Hi & Hj).
    destruct (addEdge_Rep g a i j HR Hne Hi Hj) as (g' & E & R & It & _).
    exists g'. rewrite It. auto.
  - destruct Hal as (Hnd & Hincl).
    destruct (connect_Rep l g a HR Hnd Hincl) as (g' & E & R & It & _).
    exists g'. rewrite It. auto.
  - destruct (removeNode_Rep g a i HR) as (g' & E & R & It & _); [now rewrite Hit|].
    exists g'. rewrite It. auto.
Qed.

Lemma g_run_Rep items0 ops : forall g a, Rep g a -> items_all g = items0 ->
  allowed_all items0 a ops ->
  exists g', g_run g ops = Ok g' /\ Rep g' (fold_left a_step ops a) /\ items_all g' = items0.
Proof.
  induction ops as [|op ops IH]; intros g a HR Hit Hal; simpl.
  - exists g. auto.
  - destruct Hal as [Hop Hal]. destruct (g_step_Rep items0 g a op) as (g1 & E1 & R1 & It1); auto.
    unfold g_run. simpl. rewrite E1. simpl. apply IH; auto.
Qed.

(** ** Re-activation (C03) *)

Lemma a_edge_count_unique a n m : a_edge_count a n -> a_edge_count a m -> n = m.
Proof.
  intros (P & HP & HPi & ->) (Q & HQ & HQi & ->). f_equal.
  apply NoDup_ext_length; auto. intros [x y]. now rewrite HPi, HQi.
Qed.

Definition zpair (i x : Z) : Z * Z := if (i <? x)%Z then (i, x) else (x, i).

Lemma zpair_inj i x y : zpair i x = zpair i y -> x = y.
Proof.
  unfold zpair. destruct (Z.ltb_spec i x), (Z.ltb_spec i y); intros E; injection E; intros; lia.
Qed.

Lemma revive_count a i j n nb :
  (forall x y, a_adj a x y -> a_adj a y x) -> (forall x, ~ a_adj a x x) ->
  a_edge_count a n -> a_neighbours a i nb -> ~ In i (a_items a) -> In j (a_items a) ->
  a_edge_count (a_revive a i j)
    (n + Z.of_nat (length nb) + (if existsb (Z.eqb j) nb then 0 else 1))%Z.
Proof.
  intros Hsym Hirr (P & HP & HPi & ->) [Hnb Hnbi] Hi Hj.
  set (nb' := if existsb (Z.eqb j) nb then nb else j :: nb).
  assert (Hex : existsb (Z.eqb j) nb = true <-> In j nb).
  { rewrite existsb_exists. split.
    - intros (y & Hy & E). apply Z.eqb_eq in E. now subst.
    - intros H. exists j. split; auto. apply Z.eqb_refl. }
  assert (Hnb'i : forall x, In x nb' <-> In x (a_items a) /\ (a_adj a i x \/ x = j)).
  { intros x. unfold nb'. destruct (existsb (Z.eqb j) nb) eqn:E.
    - rewrite Hnbi. split; [tauto|]. intros [H [H'| ->]]; auto. apply Hnbi. now apply Hex.
    - simpl. rewrite Hnbi. intuition; subst; auto. }
  assert (Hnb' : NoDup nb').
  { unfold nb'. destruct (existsb (Z.eqb j) nb) eqn:E; auto. constructor; auto.
    rewrite <- Hex. congruence. }
  exists (P ++ map (zpair i) nb'). split; [|split].
  - apply NoDup_app_intro; auto.
    + apply NoDup_map_inj_in; auto. intros x y _ _. apply zpair_inj.
    + intros [x y] H1 H2. apply HPi in H1. apply in_map_iff in H2.
      destruct H2 as (z & E & Hz). unfold zpair in E.
      destruct (i <? z)%Z; injection E as <- <-; tauto.
  - intros x y. rewrite in_app_iff, HPi, in_map_iff. simpl. split.
    + intros [(H1 & H2 & H3 & H4)|(z & E & Hz)]; [tauto|].
      apply Hnb'i in Hz. destruct Hz as [Hz Hz'].
      assert (i <> z) by (intros ->; tauto).
      unfold zpair in E. destruct (Z.ltb_spec i z); injection E as <- <-.
      * split; [lia|]. split; [auto|]. split; [auto|]. destruct Hz'; auto.
      * split; [lia|]. split; [auto|]. split; [auto|]. destruct Hz'; auto.
    + intros (Hlt & [<-|Hx] & [<-|Hy] & Hadj); [lia| | |].
      * right. exists y. split; [unfold zpair; destruct (Z.ltb_spec i y); [auto|lia]|].
        apply Hnb'i. split; auto. intuition; subst; auto.
      * right. exists x. split; [unfold zpair; destruct (Z.ltb_spec i x); [lia|auto]|].
        apply Hnb'i. split; auto. intuition; subst; auto.
      * left. intuition; subst; tauto.
  - rewrite app_length, map_length. unfold nb'.
    destruct (existsb (Z.eqb j) nb); simpl length; lia.
Qed.

Lemma addEdge_revive g a i j : Rep g a -> In i (items_all g) -> ~ In i (a_items a) ->
  In j (a_items a) ->
  exists g' nb, addEdge g i j = Ok g' /\ a_neighbours a i nb /\
    g_nv g' = (g_nv g + 1)%Z /\
    (forall x, In x (getItems g') <-> x = i \/ In x (a_items a)) /\
    g_ne g' = (g_ne g + (if existsb (Z.eqb j) nb then 0 else 1))%Z.
Proof.
  intros HR Hin Hi Hj.
  destruct (rep_neighbours g a i HR Hin) as (nb & Enb & _ & Hnb).
  destruct HR as [I Hit Ha]. rewrite <- Hit in Hi, Hj.
  apply In_nth_error in Hin. destruct Hin as [u Hu].
  apply getItems_In in Hj. destruct Hj as (v & Hv & Hav).
  assert (Hau : act g u = false).
  { destruct (act g u) eqn:E; auto. exfalso. apply Hi, getItems_In. eauto. }
  assert (Huv : u <> v) by (intros ->; congruence).
  pose proof (nth_error_items_lt _ _ _ Hu) as Hlu.
  pose proof (nth_error_items_lt _ _ _ Hv) as Hlv.
  destruct (nth_error (g_verts g) u) as [vu|] eqn:Evu;
    [|apply nth_error_None in Evu; unfold nverts in Hlu; lia].
  destruct (act_act _ _ Hav) as (vv & Hvv & Hvva).
  assert (Hvu : v_active vu = false) by (unfold act in Hau; now rewrite Evu in Hau).
  assert (Hiu : v_item vu = i).
  { unfold items_all in Hu. rewrite (map_nth_error v_item _ _ Evu) in Hu. congruence. }
  unfold addEdge.
  rewrite (proj2 (inv_pos g I i u) Hu), (proj2 (inv_pos g I j v) Hv). cbn [bind].
  unfold activate at 1. rewrite (vec_get_Ok _ _ _ Evu). cbn [bind]. rewrite Hvu. cbn [bind].
  set (g1 := mkGraph _ _ _ _ _).
  rewrite (activate_id g1 v vv); auto.
  2:{ unfold g1; simpl. now rewrite nth_error_upd_neq. }
  cbn [bind]. change (g_adj g1) with (g_adj g).
  rewrite (vec_get_Ok _ _ _ (adjl_get g u I Hlu)). cbn [bind].
  assert (HgI : forall x, In x (map v_item (filter v_active (g_verts g1))) <-> x = i \/ In x (a_items a)).
  { intros x. rewrite <- Hit. change (In x (getItems g1) <-> x = i \/ In x (getItems g)).
    rewrite !getItems_In.
    assert (Hit1 : items_all g1 = items_all g).
    { unfold items_all at 1, g1; simpl. rewrite upd_map. apply upd_same. simpl. rewrite Hiu. exact Hu. }
    rewrite Hit1. assert (Hact1 : forall r, act g1 r = act g r || Nat.eqb r u).
    { intros r. unfold act, g1; simpl. destruct (Nat.eqb_spec r u) as [->|].
      - rewrite nth_error_upd_eq by exact Hlu. simpl. now rewrite orb_true_r.
      - rewrite nth_error_upd_neq by auto. now rewrite orb_false_r. }
    split.
    - intros (r & Hr & Har). rewrite Hact1 in Har.
      destruct (Nat.eqb_spec r u) as [->|]; [left; congruence|].
      rewrite orb_false_r in Har. right. eauto.
    - intros [->|(r & Hr & Har)].
      + exists u. split; auto. rewrite Hact1, Nat.eqb_refl. apply orb_true_r.
      + exists r. split; auto. now rewrite Hact1, Har. }
  assert (Hex : existsb (Nat.eqb v) (adjl g u) = existsb (Z.eqb j) nb).
  { apply eq_true_iff_eq. rewrite existsb_eqb_In, existsb_exists. destruct Hnb as [_ Hnb]. split.
    - intros H. exists j. split; [|apply Z.eqb_refl]. apply Hnb. rewrite <- Hit.
      split; [apply getItems_In; eauto|]. apply Ha. eauto 6.
    - intros (y & Hy & E). apply Z.eqb_eq in E. subst y. apply Hnb in Hy.
      destruct Hy as [_ Hy]. apply Ha in Hy. destruct Hy as (r & w & Hr & Hw & H).
      assert (r = u) by (eapply inv_items_inj; eauto).
      assert (w = v) by (eapply inv_items_inj; eauto). now subst. }
  destruct (existsb (Nat.eqb v) (adjl g u)) eqn:E.
  - exists g1, nb. rewrite <- Hex. split; [reflexivity|]. split; auto. split; [reflexivity|].
    split; [exact HgI|]. simpl. lia.
  - unfold boost_add_edge. change (g_adj g1) with (g_adj g).
    rewrite (vec_get_Ok _ _ _ (adjl_get g u I Hlu)). cbn [bind].
    rewrite (vec_get_Ok _ v (adjl g v)).
    2:{ rewrite nth_error_upd_neq by auto. apply adjl_get; auto. }
    cbn [bind]. eexists _, nb. rewrite <- Hex.
    split; [reflexivity|]. split; [exact Hnb|]. split; [reflexivity|].
    split; [exact HgI|]. reflexivity.
Qed.
