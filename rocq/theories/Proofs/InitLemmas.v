(** initializeInternal refines abstract greedy elimination. *)
From Coq Require Import List ZArith Bool Lia Arith Sorted.
From Verif Require Import Model.Base Model.Items Model.Graph Model.Mixed Model.ClusterGraph
  Spec.GraphSpec Spec.ElimSpec
  Proofs.ListLemmas Proofs.ItemsLemmas Proofs.GraphLemmas Proofs.ElimLemmas.
Import ListNotations.

(** First cluster in the list that contains [sep]; the last one if none does. *)
Fixpoint fp (sep : list Z) (cls : list (list Z)) : nat :=
  match cls with
  | [] => 0
  | [_] => 0
  | c :: cs => if isSubset sep c then 0 else S (fp sep cs)
  end.

Lemma fp_cons sep c cs : cs <> [] -> fp sep (c :: cs) = if isSubset sep c then 0 else S (fp sep cs).
Proof. destruct cs; [congruence|reflexivity]. Qed.

(** ** choice of the item *)
Lemma choose_fold g a : Rep g a -> forall l e0 m0,
  incl l (a_items a) ->
  exists e m, foldM (choose_step g) l (e0, m0) = Ok (e, m) /\
   ((e = e0 /\ m = m0 /\ (forall x n, In x l -> a_degree a x n -> (m0 <= Z.of_nat n)%Z)) \/
    (exists l1 l2 n, l = l1 ++ e :: l2 /\ m = Z.of_nat n /\ (m < m0)%Z /\ a_degree a e n /\
      (forall x k, In x l1 -> a_degree a x k -> (n < k)%nat) /\
      (forall x k, In x l2 -> a_degree a x k -> (n <= k)%nat))).
Proof.
  intros HR. induction l as [|x l IH]; intros e0 m0 Hincl.
  - exists e0, m0. split; [reflexivity|]. left. repeat split. intros ? ? [].
  - assert (Hx : In x (items_all g)).
    { assert (H : In x (a_items a)) by (apply Hincl; now left).
      rewrite <- (rep_items _ _ HR) in H. apply getItems_In in H.
      destruct H as (r & Hr & _). now apply nth_error_In in Hr. }
    destruct (rep_neighbours g a x HR Hx) as (nb & E1 & E2 & Hnb).
    simpl. unfold choose_step at 1. rewrite E1. cbn [bind].
    assert (Huniq : forall k, a_degree a x k -> k = length nb).
    { intros k (l' & [Hnd' Hl'] & <-). destruct Hnb as [Hnd Hl].
      apply NoDup_ext_length; auto. intros y. now rewrite Hl, Hl'. }
    assert (Hincl' : incl l (a_items a)) by (intros y Hy; apply Hincl; now right).
    destruct (Z.ltb_spec (Z.of_nat (length nb)) m0) as [Hlt|Hge].
    + destruct (IH x (Z.of_nat (length nb)) Hincl') as (e & m & E & Hcase).
      exists e, m. split; [exact E|]. right.
      destruct Hcase as [(-> & -> & Hall)|(l1 & l2 & n & -> & -> & Hm & Hd & H1 & H2)].
      * exists [], l, (length nb). repeat split; auto.
        -- exists nb. auto.
        -- intros ? ? [].
        -- intros y k Hy Hk. specialize (Hall y k Hy Hk). lia.
      * exists (x :: l1), l2, n. repeat split; auto; [lia|].
        intros y k [<-|Hy] Hk; [|eauto]. apply Huniq in Hk. lia.
    + destruct (IH e0 m0 Hincl') as (e & m & E & Hcase).
      exists e, m. split; [exact E|].
      destruct Hcase as [(-> & -> & Hall)|(l1 & l2 & n & -> & -> & Hm & Hd & H1 & H2)].
      * left. repeat split; auto. intros y k [<-|Hy] Hk; [|eauto]. apply Huniq in Hk. lia.
      * right. exists (x :: l1), l2, n. repeat split; auto.
        intros y k [<-|Hy] Hk; [|eauto]. apply Huniq in Hk. lia.
Qed.

Lemma degree_lt g a x n : Rep g a -> In x (a_items a) -> a_degree a x n ->
  (n < length (a_items a))%nat.
Proof.
  intros HR Hx (l & [Hnd Hl] & <-).
  assert (NoDup (x :: l)).
  { constructor; auto. intros H. apply Hl in H. destruct H as [_ H]. eapply rep_irr; eauto. }
  change (S (length l) <= length (a_items a))%nat.
  change (S (length l)) with (length (x :: l)). apply NoDup_incl_length; auto.
  intros y [<-|Hy]; auto. now apply Hl in Hy.
Qed.

Lemma choose_item_spec g a : Rep g a -> a_items a <> [] ->
  exists e, choose_item g = Ok e /\ first_min a e.
Proof.
  intros HR Hne. unfold choose_item. rewrite (rep_items _ _ HR).
  destruct (a_items a) as [|x l] eqn:Ea; [congruence|].
  unfold vec_at. cbn [nth_error bind].
  destruct (choose_fold g a HR (x :: l) x (Z.of_nat (length (x :: l)))) as (e & m & E & Hc).
  { rewrite Ea. apply incl_refl. }
  rewrite E. cbn [bind fst]. exists e. split; auto.
  destruct Hc as [(-> & -> & Hall)|(l1 & l2 & n & El & -> & Hm & Hd & H1 & H2)].
  - exfalso. assert (Hx : In x (items_all g)).
    { assert (H : In x (a_items a)) by (rewrite Ea; now left).
      rewrite <- (rep_items _ _ HR) in H. apply getItems_In in H.
      destruct H as (r & Hr & _). now apply nth_error_In in Hr. }
    destruct (rep_neighbours g a x HR Hx) as (nb & _ & _ & Hnb).
    assert (Hd : a_degree a x (length nb)) by (exists nb; auto).
    pose proof (Hall x _ (or_introl eq_refl) Hd).
    assert (length nb < length (a_items a))%nat.
    { eapply degree_lt; eauto. rewrite Ea. now left. }
    rewrite Ea in *. lia.
  - exists l1, l2, n. rewrite Ea. auto.
Qed.

(** ** edges *)
Section Edges.
Variable S : sig.
Notation edge := (edge S).

Definition with_second (e : edge) (c : nat) : edge :=
  mkEdge (e_first e) (Z.of_nat c) (e_belief e).

Lemma set_second_fold (c : nat) : forall ids (es : list edge),
  (forall id, In id ids -> (id < length es)%nat) ->
  exists es', foldM (fun es id => set_second es id c) ids es = Ok es' /\
    length es' = length es /\
    forall id e, nth_error es id = Some e ->
      nth_error es' id = Some (if existsb (Nat.eqb id) ids then with_second e c else e).
Proof.
  induction ids as [|i ids IH]; intros es H; simpl.
  - exists es. auto.
  - assert (Hi : (i < length es)%nat) by (apply H; now left).
    destruct (nth_error es i) as [ei|] eqn:Ei; [|apply nth_error_None in Ei; lia].
    unfold set_second at 1. rewrite (vec_at_Ok _ _ _ Ei). cbn [bind].
    destruct (IH (upd es i (mkEdge (e_first ei) (Z.of_nat c) (e_belief ei)))) as (es' & E & L & Hn).
    { intros id Hid. rewrite upd_length. apply H. now right. }
    exists es'. split; [exact E|]. split; [now rewrite L, upd_length|].
    intros id e He. destruct (Nat.eqb_spec id i) as [->|Hne]; simpl.
    + assert (e = ei) by congruence. subst ei.
      rewrite (Hn i _ (nth_error_upd_eq _ _ _ Hi)).
      destruct (existsb (Nat.eqb i) ids); reflexivity.
    + apply Hn. now rewrite nth_error_upd_neq by auto.
Qed.

Definition hsub (es : list edge) (cluster : list Z) (id : nat) : bool :=
  match nth_error es id with
  | Some e => isSubset (m_items (e_belief e)) cluster
  | None => false
  end.

Lemma hang_fold cluster c : forall ids (es : list edge) nh,
  (forall id, In id ids -> (id < length es)%nat) ->
  exists es', foldM (hang_step cluster c) ids (es, nh) =
              Ok (es', nh ++ filter (fun id => negb (hsub es cluster id)) ids) /\
    length es' = length es /\
    forall id e, nth_error es id = Some e ->
      nth_error es' id = Some (if existsb (Nat.eqb id) ids && hsub es cluster id
                               then with_second e c else e).
Proof.
  induction ids as [|i ids IH]; intros es nh H.
  - exists es. simpl. rewrite app_nil_r. auto.
  - assert (Hi : (i < length es)%nat) by (apply H; now left).
    destruct (nth_error es i) as [ei|] eqn:Ei; [|apply nth_error_None in Ei; lia].
    cbn [foldM filter]. unfold hang_step at 1. rewrite (vec_at_Ok _ _ _ Ei). cbn [bind].
    assert (Hh : hsub es cluster i = isSubset (m_items (e_belief ei)) cluster)
      by (unfold hsub; now rewrite Ei).
    destruct (isSubset (m_items (e_belief ei)) cluster) eqn:Esub.
    + unfold set_second. rewrite (vec_at_Ok _ _ _ Ei). cbn [bind].
      set (es1 := upd es i _).
      assert (Hsame : forall id, hsub es1 cluster id = hsub es cluster id).
      { intros id. unfold hsub, es1. destruct (Nat.eq_dec i id) as [<-|Hne].
        - rewrite nth_error_upd_eq by auto. rewrite Ei. reflexivity.
        - now rewrite nth_error_upd_neq. }
      destruct (IH es1 nh) as (es' & E & L & Hn).
      { intros id Hid. unfold es1. rewrite upd_length. apply H. now right. }
      exists es'. rewrite E, Hh. cbn [negb]. split; [|split].
      * f_equal. f_equal. f_equal. apply filter_ext. intros id. now rewrite Hsame.
      * rewrite L. unfold es1. apply upd_length.
      * intros id e He. cbn [existsb]. destruct (Nat.eqb_spec id i) as [->|Hne]; cbn [orb andb].
        -- assert (e = ei) by congruence. subst ei.
           rewrite (Hn i (with_second e c) (nth_error_upd_eq _ _ _ Hi)), Hh.
           destruct (existsb (Nat.eqb i) ids && hsub es1 cluster i); reflexivity.
        -- rewrite <- Hsame. apply Hn. unfold es1. now rewrite nth_error_upd_neq by auto.
    + cbn [bind]. destruct (IH es (nh ++ [i])) as (es' & E & L & Hn).
      { intros id Hid. apply H. now right. }
      exists es'. rewrite E, Hh. cbn [negb]. split; [|split; auto].
      * f_equal. f_equal. now rewrite <- app_assoc.
      * intros id e He. rewrite (Hn id e He). cbn [existsb].
        destruct (Nat.eqb_spec id i) as [->|Hne]; cbn [orb andb]; auto.
        rewrite Hh. now rewrite andb_false_r.
Qed.

Definition edge_end (e : edge) (n0 : nat) (cls : list (list Z)) : edge :=
  with_second e (n0 + fp (m_items (e_belief e)) cls).

Lemma not_complete_nonempty a : ~ a_complete a -> a_items a <> [].
Proof. intros H E. apply H. intros x y Hx. rewrite E in Hx. destruct Hx. Qed.

Lemma length_remove a e : NoDup (a_items a) -> In e (a_items a) ->
  length (a_items (a_remove a e)) = (length (a_items a) - 1)%nat.
Proof.
  intros Hnd He. simpl. induction Hnd as [|x l Hni Hnd IH]; simpl in *; [tauto|].
  destruct (Z.eqb_spec x e) as [->|Hne]; simpl.
  - rewrite filter_notin_id; auto. lia.
  - rewrite IH by tauto. destruct l; simpl in *; [tauto|lia].
Qed.

Lemma init_spec : forall fuel (cg : cgraph S) g hanging a,
  Rep g a -> (length (a_items a) < fuel)%nat ->
  (forall id, In id hanging -> (id < length (cg_edges cg))%nat) ->
  let n0 := length (cg_clusters cg) in
  let m0 := length (cg_edges cg) in
  exists es cls seps edges',
    elim a es cls seps /\
    initializeInternal fuel cg g hanging =
      Ok (mkCG (cg_clusters cg ++ map mixed_of_items cls) edges' (cg_calibrated cg)) /\
    length edges' = (m0 + length seps)%nat /\
    (forall id e, nth_error (cg_edges cg) id = Some e ->
       nth_error edges' id = Some (if existsb (Nat.eqb id) hanging then edge_end e n0 cls else e)) /\
    (forall i s, nth_error seps i = Some s ->
       nth_error edges' (m0 + i) =
         Some (mkEdge (Z.of_nat (n0 + i))
                      (Z.of_nat (n0 + i + 1 + fp s (skipn (i + 1) cls)))
                      (mixed_of_items s))).
Proof.
  induction fuel as [|fuel IH]; intros cg g hanging a HR Hfuel Hhang n0 m0; [lia|].
  cbn [initializeInternal].
  destruct (isComplete g) eqn:Ec.
  - apply (isComplete_Rep g a HR) in Ec.
    destruct (set_second_fold n0 hanging (cg_edges cg) Hhang) as (es' & E & L & Hn).
    exists [], [a_items a], [], es'. split; [now constructor|]. fold n0. rewrite E. cbn [bind].
    rewrite (rep_items _ _ HR). split; [reflexivity|]. split; [simpl; lia|]. split.
    + intros id e He. rewrite (Hn id e He). unfold edge_end. simpl fp. now rewrite Nat.add_0_r.
    + intros [|i] s; discriminate.
  - assert (Hnc : ~ a_complete a).
    { intros H. apply (isComplete_Rep g a HR) in H. congruence. }
    destruct (choose_item_spec g a HR (not_complete_nonempty a Hnc)) as (e & Ee & Hmin).
    rewrite Ee. cbn [bind].
    assert (Hein : In e (a_items a)) by now apply first_min_In.
    assert (Hei : In e (items_all g)).
    { rewrite <- (rep_items _ _ HR) in Hein. apply getItems_In in Hein.
      destruct Hein as (r & Hr & _). now apply nth_error_In in Hr. }
    destruct (rep_neighbours g a e HR Hei) as (sep & Esep & _ & Hnb).
    rewrite Esep. cbn [bind]. fold n0. fold m0.
    destruct (union_spec [e] sep) as [Hsort Hcl].
    { repeat constructor; simpl; tauto. } { apply Hnb. }
    set (cluster := findItemsUnion [e] sep) in *.
    set (enew := mkEdge (Z.of_nat n0) (-1) (mixed_of_items sep)).
    destruct (hang_fold cluster n0 hanging (cg_edges cg ++ [enew]) []) as (es1 & E1 & L1 & Hn1).
    { intros id Hid. rewrite app_length. apply Hhang in Hid. lia. }
    rewrite E1. cbn [bind app]. clear E1.
    set (nh := filter (fun id => negb (hsub (cg_edges cg ++ [enew]) cluster id)) hanging) in *.
    destruct (connect_Rep sep g a HR) as (g1 & Eg1 & R1 & It1 & _).
    { apply Hnb. } { intros x Hx. now apply Hnb in Hx. }
    rewrite Eg1. cbn [bind].
    destruct (removeNode_Rep g1 (a_connect a sep) e R1) as (g2 & Eg2 & R2 & It2 & _).
    { now rewrite It1. }
    rewrite Eg2. cbn [bind].
    assert (Hnd : NoDup (a_items a)).
    { rewrite <- (rep_items _ _ HR). apply getItems_NoDup. apply HR. }
    set (cg' := mkCG (cg_clusters cg ++ [mixed_of_items cluster]) es1 (cg_calibrated cg)).
    assert (Les1 : length es1 = (m0 + 1)%nat).
    { rewrite L1, app_length. reflexivity. }
    destruct (IH cg' g2 (nh ++ [m0]) _ R2) as (ess & cls & seps & edges' & Hel & Ei & Le & Hold & Hnew).
    { rewrite length_remove; auto.
      change (a_items (a_connect a sep)) with (a_items a).
      assert (length (a_items a) <> 0)%nat; [|lia].
      intros H0. apply length_zero_iff_nil in H0. now rewrite H0 in Hein. }
    { intros id Hid. simpl. rewrite Les1. apply in_app_or in Hid. destruct Hid as [Hid|[<-|[]]]; [|lia].
      unfold nh in Hid. apply filter_In in Hid. destruct Hid as [Hid _]. apply Hhang in Hid.
      fold m0 in Hid. lia. }
    simpl cg_clusters in *. simpl cg_edges in *. simpl cg_calibrated in *.
    rewrite app_length in *. simpl length in *. fold n0 in Hold, Hnew. rewrite Les1 in *.
    assert (Hne : cls <> []) by (eapply elim_nonempty; eauto).
    exists (e :: ess), (cluster :: cls), (sep :: seps), edges'. split; [|split; [|split; [|split]]].
    + econstructor; eauto. intros x. rewrite Hcl. simpl. intuition.
    + rewrite Ei. rewrite <- app_assoc. reflexivity.
    + rewrite Le. simpl. lia.
    + intros id e0 He0.
      assert (Hlt : (id < m0)%nat) by (apply nth_error_Some; congruence).
      assert (He0' : nth_error (cg_edges cg ++ [enew]) id = Some e0) by (rewrite nth_error_app1; auto).
      pose proof (Hold id _ (Hn1 id e0 He0')) as H.
      rewrite H. clear H. f_equal.
      assert (Hh : hsub (cg_edges cg ++ [enew]) cluster id = isSubset (m_items (e_belief e0)) cluster)
        by (unfold hsub; now rewrite He0').
      rewrite existsb_app. simpl existsb. destruct (Nat.eqb_spec id m0); [lia|].
      cbn [orb]. rewrite orb_false_r.
      assert (Hnh : existsb (Nat.eqb id) nh =
        existsb (Nat.eqb id) hanging && negb (hsub (cg_edges cg ++ [enew]) cluster id)).
      { apply eq_true_iff_eq. rewrite andb_true_iff, !existsb_eqb_In. unfold nh.
        now rewrite filter_In. }
      rewrite Hnh, Hh. unfold edge_end. rewrite fp_cons by auto.
      destruct (existsb (Nat.eqb id) hanging); cbn [andb]; auto.
      destruct (isSubset (m_items (e_belief e0)) cluster) eqn:Es; cbn [negb].
      * now rewrite Nat.add_0_r.
      * unfold with_second. do 2 f_equal. lia.
    + intros [|i] s Hs; simpl in Hs.
      * injection Hs as <-. rewrite Nat.add_0_r.
        assert (Henew : nth_error (cg_edges cg ++ [enew]) m0 = Some enew).
        { rewrite nth_error_app2 by (unfold m0; lia). unfold m0. now rewrite Nat.sub_diag. }
        rewrite (Hold m0 _ (Hn1 m0 enew Henew)).
        rewrite existsb_app. simpl existsb. rewrite Nat.eqb_refl, orb_true_r. cbn [orb].
        assert (Hnm : existsb (Nat.eqb m0) hanging = false).
        { destruct (existsb (Nat.eqb m0) hanging) eqn:E; auto. apply existsb_eqb_In in E.
          apply Hhang in E. fold m0 in E. lia. }
        rewrite Hnm. cbn [andb]. unfold edge_end, with_second, enew; simpl.
        rewrite !Nat.add_0_r. reflexivity.
      * replace (m0 + Datatypes.S i)%nat with (m0 + 1 + i)%nat by lia.
        rewrite (Hnew i s Hs). simpl skipn. do 2 f_equal; f_equal; lia.
Qed.

End Edges.
