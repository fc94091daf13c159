(** C66: the tree depends only on the scopes of the factors. *)
From Coq Require Import List ZArith Bool Lia Arith.
From Verif Require Import Model.Base Model.Items Model.Graph Model.Mixed Model.ClusterGraph Spec.TreeSpec
  Proofs.ItemsLemmas Proofs.MixedLemmas Proofs.MessageLemmas Proofs.BuildLemmas Proofs.ClusterMain.
Import ListNotations.

Section Skeleton.
Variables S1 S2 : sig.
Definition skel {S} (e : edge S) : Z * Z * list Z := (e_first e, e_second e, m_items (e_belief e)).
Definition esame (es1 : list (edge S1)) (es2 : list (edge S2)) : Prop := map skel es1 = map skel es2.
Definition cgsame (c1 : cgraph S1) (c2 : cgraph S2) : Prop :=
  map m_items (cg_clusters c1) = map m_items (cg_clusters c2) /\ esame (cg_edges c1) (cg_edges c2).

Definition alike {A C} (Q : A -> C -> Prop) (o1 : outcome A) (o2 : outcome C) : Prop :=
  match o1, o2 with
  | Ok a, Ok c => Q a c
  | Throw e, Throw e' => e = e'
  | UB, UB => True
  | NoFuel, NoFuel => True
  | _, _ => False
  end.
Lemma alike_bind {A C A' C'} (Q : A -> C -> Prop) (Q' : A' -> C' -> Prop) o1 o2 f1 f2 :
  alike Q o1 o2 -> (forall a c, Q a c -> alike Q' (f1 a) (f2 c)) -> alike Q' (bind o1 f1) (bind o2 f2).
Proof. destruct o1, o2; cbn [alike bind]; auto; tauto. Qed.
Lemma alike_refl {A} (o : outcome A) : alike eq o o.
Proof. destruct o; cbn; auto. Qed.

Lemma esame_length es1 es2 : esame es1 es2 -> length es1 = length es2.
Proof. intros H. apply (f_equal (@length _)) in H. now rewrite !map_length in H. Qed.
Lemma esame_app a1 a2 b1 b2 : esame a1 a2 -> esame b1 b2 -> esame (a1 ++ b1) (a2 ++ b2).
Proof. unfold esame. rewrite !map_app. congruence. Qed.
Lemma at_same es1 es2 id : esame es1 es2 -> alike (fun a c => skel a = skel c) (vec_at es1 id) (vec_at es2 id).
Proof.
  intros H. unfold vec_at. assert (E : option_map skel (nth_error es1 id) = option_map skel (nth_error es2 id)) by (rewrite <- !nth_error_map; unfold esame in H; now rewrite H).
  destruct (nth_error es1 id), (nth_error es2 id); cbn in *; try discriminate; auto. injection E as E1 E2 E3. unfold skel. congruence.
Qed.
Lemma upd_same id : forall es1 es2 e1 e2, esame es1 es2 -> skel e1 = skel e2 -> esame (upd es1 id e1) (upd es2 id e2).
Proof.
  unfold esame. induction id as [|id IH]; intros [|a l] [|a' l'] e1 e2 H E; cbn in *; try discriminate; auto; injection H as H1 H2; f_equal; auto; unfold skel in *; congruence.
Qed.
Lemma second_same es1 es2 id c : esame es1 es2 -> alike esame (set_second es1 id c) (set_second es2 id c).
Proof.
  intros H. unfold set_second. apply (alike_bind _ _ _ _ _ _ (at_same _ _ id H)). intros a b E. cbn. apply upd_same; auto.
  unfold skel in *. cbn. congruence.
Qed.
Lemma hang_same cluster n : forall hs es1 es2 nh, esame es1 es2 ->
  alike (fun a c => esame (fst a) (fst c) /\ snd a = snd c) (foldM (hang_step cluster n) hs (es1, nh)) (foldM (hang_step cluster n) hs (es2, nh)).
Proof.
  induction hs as [|h hs IH]; intros es1 es2 nh H; cbn [foldM]; [cbn; auto|].
  apply (alike_bind (fun a c => esame (fst a) (fst c) /\ snd a = snd c)).
  - unfold hang_step. apply (alike_bind _ _ _ _ _ _ (at_same _ _ h H)). intros a b E.
    assert (Ei : m_items (e_belief a) = m_items (e_belief b)) by (unfold skel in E; congruence). rewrite Ei.
    destruct (isSubset _ _); [|cbn; auto]. apply (alike_bind _ _ _ _ _ _ (second_same _ _ h n H)). cbn. auto.
  - intros [a1 a2] [b1 b2] [E1 E2]. cbn [fst snd] in *. subst. apply IH. exact E1.
Qed.
Lemma complete_same c : forall hs es1 es2, esame es1 es2 ->
  alike esame (foldM (fun es id => set_second es id c) hs es1) (foldM (fun es id => set_second es id c) hs es2).
Proof.
  induction hs as [|h hs IH]; intros es1 es2 H; cbn [foldM]; [exact H|]. apply (alike_bind _ _ _ _ _ _ (second_same _ _ h c H)). auto.
Qed.
Lemma clusters_same (c1 : cgraph S1) (c2 : cgraph S2) : cgsame c1 c2 -> length (cg_clusters c1) = length (cg_clusters c2).
Proof. intros [H _]. apply (f_equal (@length _)) in H. now rewrite !map_length in H. Qed.

Lemma init_same fuel : forall (c1 : cgraph S1) (c2 : cgraph S2) g hs, cgsame c1 c2 ->
  alike cgsame (initializeInternal fuel c1 g hs) (initializeInternal fuel c2 g hs).
Proof.
  induction fuel as [|fuel IH]; intros c1 c2 g hs H; cbn [initializeInternal]; [cbn; auto|].
  pose proof (clusters_same _ _ H) as Lc. destruct H as [H1 H2]. pose proof (esame_length _ _ H2) as Le.
  destruct (isComplete g).
  - rewrite Lc. apply (alike_bind _ _ _ _ _ _ (complete_same _ hs _ _ H2)). intros a c E. cbn. split; [|exact E].
    cbn [cg_clusters]. rewrite !map_app. now f_equal.
  - apply (alike_bind _ _ _ _ _ _ (alike_refl _)). intros i ? <-. apply (alike_bind _ _ _ _ _ _ (alike_refl _)). intros sep ? <-.
    cbv zeta. rewrite Lc. set (cl := findItemsUnion [i] sep).
    assert (E : esame (cg_edges c1 ++ [mkEdge (Z.of_nat (length (cg_clusters c2))) (-1) (mixed_of_items sep)])
                      (cg_edges c2 ++ [mkEdge (Z.of_nat (length (cg_clusters c2))) (-1) (mixed_of_items sep)])) by (apply esame_app; [exact H2|reflexivity]).
    apply (alike_bind _ _ _ _ _ _ (hang_same cl (length (cg_clusters c2)) hs _ _ [] E)). intros [a1 a2] [b1 b2] [E1 E2]. cbn [fst snd] in *. subst a2.
    apply (alike_bind _ _ _ _ _ _ (alike_refl _)). intros g1 ? <-. apply (alike_bind _ _ _ _ _ _ (alike_refl _)). intros g2 ? <-.
    rewrite Le. apply IH. split; [|exact E1]. cbn [cg_clusters]. rewrite !map_app. now f_equal.
Qed.

Lemma populate_items {S} (cg : cgraph S) (bs : list (mixed S)) : (forall c, In c (cg_clusters cg) -> mwf c) -> (forall b, In b bs -> mwf b) ->
  map m_items (cg_clusters (populate cg bs)) = map m_items (cg_clusters cg) /\ cg_edges (populate cg bs) = cg_edges cg.
Proof.
  intros H1 H2. pose proof (populate_spec S (cg_clusters cg) bs H1 H2) as Hp. unfold populate.
  destruct (populateClusters (cg_clusters cg) true bs) as [cls' rest]. cbn. split; [apply Hp|reflexivity].
Qed.

Lemma build_same (fs1 : list (B S1)) (fs2 : list (B S2)) c1 c2 : map (bscope S1) fs1 = map (bscope S2) fs2 -> (forall f, In f fs1 -> NoDup (bscope S1 f)) ->
  build fs1 = Ok c1 -> build fs2 = Ok c2 -> cgsame c1 c2.
Proof.
  intros Es Hn E1 E2.
  assert (Hn2 : forall f, In f fs2 -> NoDup (bscope S2 f)).
  { intros f Hf. apply (in_map (bscope S2)) in Hf. rewrite <- Es in Hf. apply in_map_iff in Hf. destruct Hf as (f' & <- & Hf'). auto. }
  assert (W1 : forall b, In b (map mixed_of_belief fs1) -> mwf b) by (intros b Hb; apply in_map_iff in Hb; destruct Hb as (f & <- & Hf); apply mwf_of_belief; auto).
  assert (W2 : forall b, In b (map mixed_of_belief fs2) -> mwf b) by (intros b Hb; apply in_map_iff in Hb; destruct Hb as (f & <- & Hf); apply mwf_of_belief; auto).
  unfold build, makeClusterGraph in E1, E2.
  assert (Em : map m_items (map (@mixed_of_belief S1) fs1) = map m_items (map (@mixed_of_belief S2) fs2)) by (rewrite !scopes_map; exact Es).
  destruct (initialize_shape S1 (map m_items (map mixed_of_belief fs1))) as (g & d1 & i1 & e1 & k1 & s1 & Eg & Ei1 & Sh1 & _).
  { intros s Hs. apply in_map_iff in Hs. destruct Hs as (b & <- & Hb). now apply W1. }
  destruct (initialize_shape S2 (map m_items (map mixed_of_belief fs2))) as (g' & d2 & i2 & e2 & k2 & s2 & Eg' & Ei2 & Sh2 & _).
  { intros s Hs. apply in_map_iff in Hs. destruct Hs as (b & <- & Hb). now apply W2. }
  rewrite <- Em, Eg in Eg'. injection Eg' as <-. rewrite <- Em, Eg in E2. rewrite Eg in E1. cbn [bind] in E1, E2. rewrite Ei1 in E1. rewrite Ei2 in E2. cbn [bind] in E1, E2.
  injection E1 as <-. injection E2 as <-.
  assert (A : cgsame d1 d2).
  { unfold initialize in Ei1, Ei2. pose proof (init_same (Datatypes.S (length (g_verts g))) emptyCG emptyCG g [] (conj eq_refl eq_refl)) as A.
    rewrite Ei1, Ei2 in A. exact A. }
  destruct (populate_items d1 (map mixed_of_belief fs1) (sh_wf _ _ _ _ _ _ _ Sh1) W1) as [P1 Q1].
  destruct (populate_items d2 (map mixed_of_belief fs2) (sh_wf _ _ _ _ _ _ _ Sh2) W2) as [P2 Q2].
  unfold cgsame. rewrite P1, P2, Q1, Q2. exact A.
Qed.
Lemma width_same (c1 : cgraph S1) (c2 : cgraph S2) : cgsame c1 c2 -> width c1 = width c2.
Proof.
  intros [H _]. unfold width. revert H. generalize 0%Z. generalize (cg_clusters c2). induction (cg_clusters c1) as [|a l IH]; intros [|a' l'] z H; cbn in *; try discriminate; auto.
  injection H as H1 H2. rewrite H1. now apply IH.
Qed.
End Skeleton.

Lemma width_ge {S} (cg : cgraph S) c : In c (cg_clusters cg) -> (Z.of_nat (length (m_items c)) <= width cg)%Z.
Proof.
  unfold width. assert (G : forall (l : list (mixed S)) z, (z <= fold_left (fun w c => Z.max w (Z.of_nat (length (m_items c)))) l z)%Z).
  { intros l. induction l as [|a l IH]; intros z; cbn [fold_left]; [lia|]. etransitivity; [|apply IH]. lia. }
  generalize 0%Z. induction (cg_clusters cg) as [|a l IH]; intros z; [intros []|]. cbn [fold_left]. intros [->|H]; [|auto].
  etransitivity; [|apply G]. lia.
Qed.
Lemma width_cap {S} (cg : cgraph S) c : In c (cg_clusters cg) -> (length (m_items c) <= Z.to_nat (width cg))%nat.
Proof. intros H. pose proof (width_ge cg c H). lia. Qed.

Lemma C66_tree_main S1 S2 (fs1 : list (B S1)) (fs2 : list (B S2)) : map (bscope S1) fs1 = map (bscope S2) fs2 -> (forall f, In f fs1 -> NoDup (bscope S1 f)) ->
  exists cg1 cg2, build fs1 = Ok cg1 /\ build fs2 = Ok cg2 /\
    cl_items cg1 = cl_items cg2 /\ sep_items cg1 = sep_items cg2 /\
    map (fun e => (e_first e, e_second e)) (cg_edges cg1) = map (fun e => (e_first e, e_second e)) (cg_edges cg2) /\ width cg1 = width cg2.
Proof.
  intros Es Hn.
  assert (Hn2 : forall f, In f fs2 -> NoDup (bscope S2 f)).
  { intros f Hf. apply (in_map (bscope S2)) in Hf. rewrite <- Es in Hf. apply in_map_iff in Hf. destruct Hf as (f' & <- & Hf'). auto. }
  destruct (build_ok S1 fs1 Hn) as (c1 & _ & _ & _ & _ & E1 & _). destruct (build_ok S2 fs2 Hn2) as (c2 & _ & _ & _ & _ & E2 & _).
  pose proof (build_same S1 S2 fs1 fs2 c1 c2 Es Hn E1 E2) as A. exists c1, c2. split; auto. split; auto.
  pose proof (width_same S1 S2 c1 c2 A) as W. destruct A as [A1 A2]. split; [exact A1|]. unfold esame in A2. split.
  - apply (f_equal (map snd)) in A2. rewrite !map_map in A2. exact A2.
  - split; [|exact W]. apply (f_equal (map fst)) in A2. rewrite !map_map in A2. exact A2.
Qed.
