(** One message of the forward pass, without any assumption on the integrals. *)
From Coq Require Import List ZArith Bool Lia Arith Sorted Permutation.
From Verif Require Import Model.Base Model.Items Model.Mixed Model.ClusterGraph
  Spec.GraphSpec Spec.ElimSpec Spec.BeliefSpec Spec.TreeSpec Spec.IntegralSpec Spec.MessageSpec
  Proofs.ListLemmas Proofs.ItemsLemmas Proofs.ElimLemmas Proofs.MixedLemmas Proofs.BuildLemmas
  Proofs.ClusterMain Proofs.GroupTac Proofs.MessageLemmas Proofs.MessageMain Proofs.ForwardLemmas.
Import ListNotations.

Section Step.
Variable S : sig.
Hypothesis L : group_laws S.
Hypothesis SL : scope_law S.
Notation mixed := (mixed S).
Variables (scopes : list (list Z)) (items es : list Z) (cls seps : list (list Z)).
Hypothesis Hel : elim (scopes_graph scopes items) es cls seps.
Let Hwf := scopes_graph_wf scopes items.
Notation fwd := (fwd S cls seps).
Notation tailsum := (tailsum S).

(** The normal approximations stay as they are, once fixed. *)
Definition kept (cg cg' : cgraph S) : Prop := forall i ci, nth_error (cg_clusters cg) i = Some ci -> m_fixed ci = true ->
  exists ci', nth_error (cg_clusters cg') i = Some ci' /\ m_normal ci' = m_normal ci /\ m_fixed ci' = true.
Lemma kept_refl cg : kept cg cg.
Proof. intros i ci H F. eauto. Qed.
Lemma kept_trans a b c : kept a b -> kept b c -> kept a c.
Proof.
  intros H1 H2 i ci H F. destruct (H1 i ci H F) as (cj & N1 & E1 & F1). destruct (H2 i cj N1 F1) as (ck & N2 & E2 & F2).
  exists ck. rewrite E2. auto.
Qed.

Lemma forward_step k e s cg cg' : fwd k cg -> nth_error es k = Some e -> nth_error seps k = Some s ->
  passMessage cg k true false = Ok cg' ->
  exists ck b, nth_error cls k = Some (m_items ck) /\ nth_error (cg_clusters cg) k = Some ck /\ mwf ck /\
    In e (m_items ck) /\ (forall x, In x (m_items ck) <-> x = e \/ In x s) /\ integrate ck e = Ok b /\
    fwd (k + 1) cg' /\ kept cg cg' /\
    forall w, tailsum k cg w = dadd S (ev ck w) (dsub S (tailsum (k + 1) cg' w) (ev b w)).
Proof.
  intros F He Hs E.
  destruct (f_edge S cls seps k cg F k s (le_n _) Hs) as (p & eb & Ne & (Hkp & (cp & Hcp & Hscp) & Hfst) & Web & Ieb & Feb).
  destruct (elim_cluster _ _ _ _ Hel Hwf k e s He Hs) as (c & Hc & Hcin & Hes & Hnds & Hlater).
  destruct (cl_nth S cls cg k c (f_items _ _ _ _ _ F) Hc) as (ck & Nk & Ik).
  destruct (cl_nth S cls cg p cp (f_items _ _ _ _ _ F) Hcp) as (mp & Np & Ip).
  assert (Wk : mwf ck) by (apply (f_wf _ _ _ _ _ F); eapply nth_error_In; eauto).
  assert (Wp : mwf mp) by (apply (f_wf _ _ _ _ _ F); eapply nth_error_In; eauto).
  unfold passMessage in E. rewrite (vec_get_Ok _ _ _ Ne) in E. cbn [bind e_first e_second e_belief] in E.
  rewrite (zat_Ok _ _ _ Nk) in E. cbn [bind] in E. unfold projectClusterOntoEdge in E.
  cbn [bind e_first e_second e_belief] in E. rewrite Ieb in E.
  apply bind_Ok in E. destruct E as (e1 & E1 & E). apply bind_Ok in E1. destruct E1 as (b & Em & E1).
  injection E1 as <-. rewrite (zat_Ok _ _ _ Np) in E. cbn [bind e_belief] in E.
  apply bind_Ok in E. destruct E as (proper & _ & E). destruct proper; [|discriminate].
  injection E as <-. rewrite Nat2Z.id.
  assert (Isk : incl s (m_items ck)) by (rewrite Ik; intros x Hx; apply Hcin; auto).
  destruct (margin_wf S ck b s false SL Wk Hnds Isk Em) as [Wb Ib].
  assert (Hdiff : findItemsDifference (m_items ck) s = [e]).
  { assert (Hnd : NoDup (findItemsDifference (m_items ck) s)) by apply findItemsDifference_NoDup, Wk.
    assert (Hi : forall x, In x (findItemsDifference (m_items ck) s) <-> x = e).
    { intros x. rewrite findItemsDifference_In, Ik, Hcin. split; [tauto|]. intros ->. tauto. }
    destruct (findItemsDifference (m_items ck) s) as [|x [|y l]].
    - exfalso. apply (proj2 (Hi e)). auto.
    - f_equal. apply Hi. now left.
    - exfalso. inversion Hnd as [|? ? Hn _]; subst. apply Hn.
      assert (x = e) by (apply Hi; now left). assert (y = e) by (apply Hi; right; now left).
      subst. now left. }
  assert (Eb : integrate ck e = Ok b).
  { unfold margin in Em. rewrite Hdiff in Em. simpl in Em. apply bind_Ok in Em. destruct Em as (b' & E1 & E2). injection E2 as <-. exact E1. }
  assert (Wm : mwf (mixed_mul mp b)).
  { apply mwf_mul; auto. intros x Hx. rewrite Ip. apply Hscp, Ib, Hx. }
  assert (Im : m_items (mixed_mul mp b) = m_items mp) by now apply mul_items.
  set (mp' := mixed_div (mixed_mul mp b) eb) in *.
  assert (Wp' : mwf mp') by (apply mwf_div; auto; rewrite Im, Ip, Ieb; auto).
  assert (Ip' : m_items mp' = m_items mp) by (unfold mp'; rewrite div_items by auto; auto).
  assert (Ev' : forall w, ev mp' w = dadd S (ev mp w) (ev b w)).
  { intros w. unfold mp'. rewrite ev_div, ev_mul by auto. rewrite (ev_total S L eb). rewrite Feb.
    unfold total, dsumS. simpl. dgroup L. }
  exists ck, b. split; [now rewrite Ik|]. split; [exact Nk|]. split; [exact Wk|]. split; [rewrite Ik; apply Hcin; auto|].
  split; [intros x; rewrite Ik; apply Hcin|]. split; [exact Eb|]. split; [|split].
  - split; simpl.
    + rewrite upd_map, Ip'. rewrite upd_same; [apply F|]. now apply map_nth_error.
    + intros c' Hc'. apply upd_In in Hc'. destruct Hc' as [->|Hc']; auto. now apply (f_wf _ _ _ _ _ F).
    + rewrite upd_length. apply F.
    + intros i s' Hi Hs'. rewrite nth_error_upd_neq by lia. apply (f_edge _ _ _ _ _ F); auto. lia.
  - intros i ci Hi Fi. simpl. destruct (Nat.eq_dec i p) as [->|Hne].
    + rewrite Np in Hi. injection Hi as <-. exists mp'. split; [|split].
      * clear -Np. revert p Np. induction (cg_clusters cg) as [|x l IH]; intros [|p] H; simpl in *; try discriminate; auto.
      * unfold mp', mixed_div, mixed_mul, recompute. cbn [m_fixed m_normal]. rewrite Fi. cbn [m_fixed m_normal]. reflexivity.
      * unfold mp', mixed_div, mixed_mul, recompute. cbn [m_fixed]. exact Fi.
    + exists ci. rewrite nth_error_upd_neq by auto. auto.
  - intros w. unfold ForwardLemmas.tailsum. simpl. rewrite skipn_upd by lia.
    assert (Np' : nth_error (skipn (k + 1) (cg_clusters cg)) (p - (k + 1)) = Some mp).
    { rewrite nth_error_skipn'. now replace (k + 1 + (p - (k + 1)))%nat with p by lia. }
    pose proof (sum_upd S L (fun c => ev c w) _ _ mp' mp Np') as Hu. simpl in Hu. rewrite Ev' in Hu.
    assert (Hu' : dsumS S (map (fun c0 => ev c0 w) (upd (skipn (k + 1) (cg_clusters cg)) (p - (k + 1)) mp'))
      = dadd S (dsumS S (map (fun c0 => ev c0 w) (skipn (k + 1) (cg_clusters cg)))) (ev b w)).
    { apply (d_move S L _ _ _ _ Hu). dgroup L. }
    rewrite Hu'. rewrite (skipn_nth _ _ _ Nk). simpl. unfold dsumS at 1. simpl.
    fold (dsumS S (map (fun c0 => ev c0 w) (skipn (k + 1) (cg_clusters cg)))). dgroup L.
Qed.

Lemma later_free k e s cg m x : fwd k cg -> nth_error es k = Some e -> nth_error seps k = Some s ->
  In m (skipn (k + 1) (cg_clusters cg)) -> In x (m_items m) -> x <> e.
Proof.
  intros F He Hs Hm Hx ->. destruct (elim_cluster _ _ _ _ Hel Hwf k e s He Hs) as (c & Hc & Hcin & Hes & Hnds & Hlater).
  apply In_nth_error in Hm. destruct Hm as [n Hn]. rewrite nth_error_skipn' in Hn.
  apply (Hlater (k + 1 + n)%nat (m_items m)); auto; [lia|]. rewrite <- (f_items _ _ _ _ _ F). now apply map_nth_error.
Qed.
End Step.

(** The state after setNormalApprox. *)
Section Start.
Variable S : sig.
Hypothesis L : group_laws S.
Lemma forward_start (fs : list (B S)) cg cg1 mean prec : scopes_ok fs -> build fs = Ok cg -> cg_setNormalApprox cg mean prec = Ok cg1 ->
  exists items es cls seps, elim (scopes_graph (map (bscope S) fs) items) es cls seps /\ NoDup items /\
    (forall c, In c cls -> NoDup c) /\
    (forall x, In x items <-> exists f, In f fs /\ In x (bscope S f)) /\ fwd S cls seps 0 cg1 /\
    (forall w, tailsum S 0 cg1 w = dsumS S (map (fval S w) fs)) /\
    (forall c, In c (cg_clusters cg1) -> m_fixed c = true).
Proof.
  intros Hok E0 E1.
  destruct (build_ok S fs Hok) as (cg' & items & es & cls & seps & E' & Hsh & Hp).
  rewrite E0 in E'. injection E' as <-.
  pose proof (sh_elim _ _ _ _ _ _ _ Hsh) as Hel.
  pose proof (scopes_graph_wf (map (bscope S) fs) items) as Hwf.
  destruct (elim_lengths Hel) as [HL1 HL2].
  assert (W0 : cgwf S cg) by (destruct (build_inv S L fs cg (fun _ => dzero S) Hok E0); auto).
  assert (B0 : bare S cg).
  { intros e He. apply In_nth_error in He. destruct He as [i Hi].
    destruct (sh_edge_at S _ _ _ _ _ _ Hsh i e Hi) as (s & p & _ & _ & ->). reflexivity. }
  pose proof (setnormal_same S cg cg1 mean prec W0 B0 E1) as S1.
  exists items, es, cls, seps. split; [exact Hel|]. split; [apply sorted_lt_NoDup, Hsh|].
  split; [apply (elim_NoDup_clusters _ _ _ _ Hel), Hsh|]. split; [|split; [|split]].
  - intros x. rewrite (sh_items _ _ _ _ _ _ _ Hsh). split.
    + intros (s & Hs & Hx). apply in_map_iff in Hs. destruct Hs as (f & <- & Hf). eauto.
    + intros (f & Hf & Hx). exists (bscope S f). split; auto. now apply in_map.
  - destruct S1 as [S1a S1b]. split.
    + rewrite <- (sh_clusters _ _ _ _ _ _ _ Hsh). eapply F2_map; [exact S1a|]. intros x y (H & _). exact H.
    + intros c Hc. destruct (F2_In _ _ _ _ S1a Hc) as (c0 & Hc0 & (_ & _ & Hw)).
      apply Hw, (sh_wf _ _ _ _ _ _ _ Hsh), Hc0.
    + rewrite <- (sh_nedges _ _ _ _ _ _ _ Hsh). symmetry. clear -S1b. induction S1b; simpl; auto.
    + intros i s _ Hi. destruct (sh_edge _ _ _ _ _ _ _ Hsh i s Hi) as (p & He & Hfc).
      destruct (F2_nth _ _ _ _ _ S1b He) as ([f0 s0 b0] & He' & (A1 & A2 & (A3 & A4 & A5))).
      simpl in *. subst f0 s0. exists p, b0. split; auto. split; auto. split.
      * apply A5. apply mwf_of_items.
        destruct (nth_error es i) as [e|] eqn:Ee.
        -- destruct (elim_cluster _ _ _ _ Hel Hwf i e s Ee Hi) as (? & _ & _ & _ & H & _). exact H.
        -- apply nth_error_None in Ee. assert (i < length seps)%nat by (apply nth_error_Some; congruence). lia.
      * split; auto.
  - intros w. unfold tailsum. simpl.
    transitivity (dsumS S (map (fun c => ev c w) (cg_clusters cg))).
    + f_equal. destruct S1 as [S1a _]. eapply F2_map; [exact S1a|]. intros; now apply same_ev.
    + rewrite total_concat, (total_perm S L w _ _ Hp), total_plain; auto.
  - intros c Hc. unfold cg_setNormalApprox in E1.
    apply bind_Ok in E1. destruct E1 as (clusters & _ & E). apply bind_Ok in E. destruct E as (edges & _ & E).
    apply bind_Ok in E. destruct E as (cg2 & _ & E). apply bind_Ok in E. destruct E as (cg3 & _ & E). injection E as <-.
    cbn [cg_clusters] in Hc. apply in_map_iff in Hc. destruct Hc as (c0 & <- & _). reflexivity.
Qed.
End Start.
