(** Construction of the cluster graph: shape of the tree and distribution of
    the factors. *)
From Coq Require Import List ZArith Bool Lia Arith Sorted Permutation.
From Verif Require Import Model.Base Model.Items Model.Graph Model.Mixed Model.ClusterGraph
  Spec.GraphSpec Spec.ElimSpec Spec.BeliefSpec
  Proofs.ListLemmas Proofs.ItemsLemmas Proofs.GraphLemmas Proofs.DependenceLemmas
  Proofs.ElimLemmas Proofs.InitLemmas Proofs.MixedLemmas.
Import ListNotations.

Lemma fp_first sep : forall cls k c, NoDup sep -> (forall c, In c cls -> NoDup c) ->
  nth_error cls k = Some c -> incl sep c ->
  exists c', nth_error cls (fp sep cls) = Some c' /\ incl sep c' /\
    forall k' c'', (k' < fp sep cls)%nat -> nth_error cls k' = Some c'' -> ~ incl sep c''.
Proof.
  induction cls as [|c0 cls IH]; intros k c Hnd Hnds Hk Hi; [destruct k; discriminate|].
  destruct cls as [|c1 cls].
  - destruct k as [|k]; [|destruct k; discriminate]. injection Hk as <-.
    exists c0. split; auto. split; auto. simpl. intros; lia.
  - rewrite fp_cons by discriminate. destruct (isSubset sep c0) eqn:E.
    + apply isSubset_incl in E; auto; [|apply Hnds; now left].
      exists c0. split; auto. split; auto. intros; lia.
    + assert (Hn : ~ incl sep c0).
      { intros H. apply isSubset_incl in H; [congruence|auto|apply Hnds; now left]. }
      destruct k as [|k]; [injection Hk as <-; tauto|].
      destruct (IH k c) as (c' & H1 & H2 & H3); auto.
      { intros; apply Hnds; now right. }
      exists c'. split; auto. split; auto.
      intros [|k'] c'' Hlt Hc''; [injection Hc'' as <-; auto|].
      apply (H3 k'); auto. lia.
Qed.

Section Build.
Variable S : sig.
Notation mixed := (mixed S).

(** ** populate *)
Lemma mul_fold : forall bs (c : mixed), mwf c -> (forall b, In b bs -> mwf b) ->
  (forall b, In b bs -> incl (m_items b) (m_items c)) ->
  let c' := fold_left (fun c b => mixed_mul c b) bs c in
  mwf c' /\ m_items c' = m_items c /\ m_fixed c' = m_fixed c /\
  factors c' = factors c ++ concat (map factors bs) /\
  m_beliefs c' = m_beliefs c ++ concat (map m_beliefs bs).
Proof.
  induction bs as [|b bs IH]; intros c Hc Hb Hi; simpl.
  - rewrite !app_nil_r. auto.
  - assert (Hwf : mwf (mixed_mul c b)) by (apply mwf_mul; auto; [apply Hb|apply Hi]; now left).
    destruct (IH (mixed_mul c b) Hwf) as (H1 & H2 & H3 & H4 & H5).
    + intros; apply Hb; now right.
    + intros b' Hb'. rewrite mul_items by auto. apply Hi. now right.
    + split; [exact H1|]. split; [rewrite H2; now apply mul_items|].
      split; [rewrite H3; reflexivity|]. rewrite H4, H5, factors_mul by auto. simpl.
      now rewrite <- !app_assoc.
Qed.

Lemma filter_perm {A} (p : A -> bool) l :
  Permutation l (filter p l ++ filter (fun x => negb (p x)) l).
Proof.
  induction l as [|x l IH]; simpl; auto. destruct (p x); simpl.
  - now constructor.
  - rewrite IH at 1. apply Permutation_middle.
Qed.

Lemma concat_map_perm {A C} (f : A -> list C) l1 l2 : Permutation l1 l2 ->
  Permutation (concat (map f l1)) (concat (map f l2)).
Proof.
  induction 1; simpl; auto.
  - now apply Permutation_app_head.
  - rewrite !app_assoc. apply Permutation_app_tail, Permutation_app_comm.
  - etransitivity; eauto.
Qed.

Lemma populate_spec : forall (cls : list mixed) bs, (forall c, In c cls -> mwf c) ->
  (forall b, In b bs -> mwf b) ->
  let '(cls', rest) := populateClusters cls true bs in
  (forall c, In c cls' -> mwf c) /\
  map m_items cls' = map m_items cls /\
  map m_fixed cls' = map m_fixed cls /\
  Permutation (concat (map factors cls) ++ concat (map factors bs))
              (concat (map factors cls') ++ concat (map factors rest)) /\
  rest = filter (fun b => negb (existsb (fun c => contained c b) cls)) bs.
Proof.
  induction cls as [|c cls IH]; intros bs Hcls Hbs; cbn [populateClusters].
  - split; [auto|]. split; [auto|]. split; [auto|]. split; [simpl; auto|].
    clear. simpl. induction bs as [|b bs IHb]; simpl; auto. now f_equal.
  - unfold populateBelief.
    set (inb := filter (contained c) bs).
    set (outb := filter (fun b => negb (contained c b)) bs).
    assert (Hc : mwf c) by (apply Hcls; now left).
    destruct (mul_fold inb c Hc) as (H1 & H2 & H3 & H4 & H5).
    { intros b Hb. apply Hbs. apply filter_In in Hb. tauto. }
    { intros b Hb. apply filter_In in Hb. destruct Hb as [Hb Hs].
      unfold contained in Hs. apply isSubset_incl in Hs; auto; [apply Hbs; auto|apply Hc]. }
    specialize (IH outb). destruct (populateClusters cls true outb) as [cls' rest'] eqn:E.
    destruct IH as (I1 & I2 & I3 & I4 & I5).
    { intros; apply Hcls; now right. }
    { intros b Hb. apply Hbs. apply filter_In in Hb. tauto. }
    split; [|split; [|split; [|split]]].
    + intros c' [<-|Hc']; auto.
    + simpl. now rewrite H2, I2.
    + simpl. now rewrite H3, I3.
    + simpl. rewrite H4. rewrite <- !app_assoc. apply Permutation_app_head.
      rewrite (concat_map_perm factors _ _ (filter_perm (contained c) bs)).
      fold inb outb. rewrite map_app, concat_app.
      rewrite Permutation_app_swap_app. apply Permutation_app_head. exact I4.
    + rewrite I5. unfold outb. rewrite filter_filter. apply filter_ext. intros b. simpl.
      rewrite negb_orb. apply andb_comm.
Qed.

(** ** Shape of the graph built from beliefs *)
Record shape (scopes : list (list Z)) (cg : cgraph S)
  (items es : list Z) (cls seps : list (list Z)) : Prop := {
  sh_sorted : StronglySorted Z.lt items;
  sh_items : forall x, In x items <-> exists s, In s scopes /\ In x s;
  sh_elim : elim (scopes_graph scopes items) es cls seps;
  sh_clusters : map m_items (cg_clusters cg) = cls;
  sh_wf : forall c, In c (cg_clusters cg) -> mwf c;
  sh_nedges : length (cg_edges cg) = length seps;
  sh_edge : forall i s, nth_error seps i = Some s ->
    exists p, nth_error (cg_edges cg) i =
                Some (mkEdge (Z.of_nat i) (Z.of_nat p) (mixed_of_items s)) /\
              first_containing cls i s p;
  sh_free : forall c, In c (cg_clusters cg) -> m_fixed c = false;
  sh_cal : cg_calibrated cg = false
}.

Lemma scopes_graph_wf scopes items : wf (scopes_graph scopes items).
Proof.
  split; simpl.
  - intros x y (H & s & H1 & H2 & H3). split; auto. eauto.
  - intros x (H & _). congruence.
Qed.

Lemma elim_NoDup_clusters a es cls seps : elim a es cls seps -> StronglySorted Z.lt (a_items a) ->
  forall c, In c cls -> NoDup c.
Proof. intros H1 H2 c Hc. apply sorted_lt_NoDup. eapply elim_sorted; eauto. Qed.

Lemma nth_error_skipn' {A} (l : list A) n k : nth_error (skipn n l) k = nth_error l (n + k).
Proof. revert l. induction n; intros [|x l]; simpl; auto. destruct k; auto. Qed.

Lemma fp_first_containing a es cls seps : elim a es cls seps -> wf a ->
  StronglySorted Z.lt (a_items a) ->
  forall i s, nth_error seps i = Some s ->
  first_containing cls i s (i + 1 + fp s (skipn (i + 1) cls)).
Proof.
  intros Hel Hwf Hs i s Hi.
  destruct (elim_lengths Hel) as [_ HL].
  destruct (elim_sep_later _ _ _ _ Hel Hwf i s Hi) as (k & c & Hik & Hk & Hsc).
  assert (Hnd : NoDup s).
  { destruct (nth_error es i) as [e|] eqn:Ee.
    - destruct (elim_cluster _ _ _ _ Hel Hwf i e s Ee Hi) as (? & _ & _ & _ & H & _). exact H.
    - apply nth_error_None in Ee. assert (i < length seps)%nat by (apply nth_error_Some; congruence). lia. }
  assert (Hin : forall c, In c (skipn (i + 1) cls) -> In c cls).
  { intros c' Hc'. rewrite <- (firstn_skipn (i + 1) cls). apply in_or_app. now right. }
  destruct (fp_first s (skipn (i + 1) cls) (k - (i + 1)) c) as (c' & H1 & H2 & H3); auto.
  { intros c' Hc'. eapply elim_NoDup_clusters; eauto. }
  { rewrite nth_error_skipn'. now replace (i + 1 + (k - (i + 1)))%nat with k by lia. }
  split; [lia|]. split.
  - exists c'. split; auto. now rewrite <- nth_error_skipn'.
  - intros k' c'' Hk' Hc''. apply (H3 (k' - (i + 1))%nat); [lia|].
    rewrite nth_error_skipn'. now replace (i + 1 + (k' - (i + 1)))%nat with k' by lia.
Qed.

Lemma initialize_shape scopes : (forall s, In s scopes -> NoDup s) ->
  exists g (cg : cgraph S) items es cls seps,
    makeDependenceGraph scopes = Ok g /\ initialize emptyCG g = Ok cg /\
    shape scopes cg items es cls seps /\
    cg_clusters cg = map mixed_of_items cls.
Proof.
  intros Hnd. destruct (makeDependenceGraph_Rep scopes Hnd) as (g & items & Eg & Hs & Hit & Hin & HR).
  unfold initialize.
  destruct (init_spec S (Datatypes.S (length (g_verts g))) emptyCG g [] _ HR)
    as (es & cls & seps & edges' & Hel & E & Hl & _ & Hnew).
  { simpl. rewrite <- Hit. unfold items_all. rewrite map_length. lia. }
  { intros ? []. }
  simpl in *. exists g, (mkCG (map mixed_of_items cls) edges' false), items, es, cls, seps.
  split; auto. split; auto. split; [|reflexivity]. split; simpl; auto.
  - rewrite map_map. simpl. apply map_id.
  - intros c Hc. apply in_map_iff in Hc. destruct Hc as (l & <- & Hl').
    apply mwf_of_items. eapply elim_NoDup_clusters; eauto.
  - intros i s Hi. exists (i + 1 + fp s (skipn (i + 1) cls))%nat. split.
    + now apply Hnew.
    + eapply fp_first_containing; eauto. apply (scopes_graph_wf scopes items).
  - intros c Hc. apply in_map_iff in Hc. destruct Hc as (l & <- & Hl'). reflexivity.
Qed.

Lemma build_shape (bs : list mixed) : (forall b, In b bs -> mwf b) ->
  exists cg items es cls seps,
    makeClusterGraph bs = Ok cg /\
    shape (map m_items bs) cg items es cls seps /\
    Permutation (concat (map factors (cg_clusters cg))) (concat (map factors bs)).
Proof.
  intros Hwf.
  destruct (initialize_shape (map m_items bs)) as (g & cg & items & es & cls & seps & Eg & Ei & Hsh & Hcl).
  { intros s Hs. apply in_map_iff in Hs. destruct Hs as (b & <- & Hb). now apply Hwf. }
  unfold makeClusterGraph. rewrite Eg. cbn [bind]. rewrite Ei. cbn [bind].
  exists (populate cg bs), items, es, cls, seps. split; auto.
  pose proof (populate_spec (cg_clusters cg) bs (sh_wf _ _ _ _ _ _ Hsh) Hwf) as Hp.
  unfold populate. destruct (populateClusters (cg_clusters cg) true bs) as [cls' rest] eqn:Ep.
  destruct Hp as (P1 & P2 & P3 & P4 & P5). simpl.
  split.
  - destruct Hsh. split; simpl; auto.
    + now rewrite P2.
    + intros c Hc. apply (in_map m_fixed) in Hc. rewrite P3 in Hc.
      apply in_map_iff in Hc. destruct Hc as (c' & <- & Hc'). auto.
  - assert (Hr : rest = []).
    { rewrite P5. destruct (filter _ bs) as [|b l] eqn:E; auto. exfalso.
      assert (Hb : In b (filter (fun b => negb (existsb (fun c => contained c b) (cg_clusters cg))) bs))
        by (rewrite E; now left).
      apply filter_In in Hb. destruct Hb as [Hb Hn].
      destruct (elim_clique _ _ _ _ (sh_elim _ _ _ _ _ _ Hsh) (scopes_graph_wf _ _) (m_items b))
        as (c & Hc & Hbc).
      - intros x Hx. simpl. apply (sh_items _ _ _ _ _ _ Hsh). exists (m_items b).
        split; auto. now apply in_map.
      - intros x y Hx Hy Hxy. simpl. split; auto. exists (m_items b). split; auto. now apply in_map.
      - rewrite <- (sh_clusters _ _ _ _ _ _ Hsh) in Hc. apply in_map_iff in Hc.
        destruct Hc as (c' & <- & Hc').
        assert (existsb (fun c => contained c b) (cg_clusters cg) = true).
        { apply existsb_exists. exists c'. split; auto. unfold contained.
          apply isSubset_incl; auto; [now apply Hwf|]. now apply (sh_wf _ _ _ _ _ _ Hsh). }
        rewrite H in Hn. discriminate. }
    rewrite Hr in P4. simpl in P4. rewrite app_nil_r in P4. symmetry.
    assert (Hnil : concat (map factors (cg_clusters cg)) = []).
    { rewrite Hcl. clear. induction cls; simpl; auto. }
    rewrite Hnil in P4. exact P4.
Qed.

End Build.
Arguments shape {S}.
