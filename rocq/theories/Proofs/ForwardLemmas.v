(** C11: the forward pass computes the iterated integral. *)
From Coq Require Import List ZArith Bool Lia Arith Sorted Permutation.
From Verif Require Import Model.Base Model.Items Model.Mixed Model.ClusterGraph
  Spec.GraphSpec Spec.ElimSpec Spec.BeliefSpec Spec.TreeSpec Spec.IntegralSpec Spec.MessageSpec
  Proofs.ListLemmas Proofs.ItemsLemmas Proofs.ElimLemmas Proofs.MixedLemmas Proofs.BuildLemmas
  Proofs.ClusterMain Proofs.GroupTac Proofs.MessageLemmas Proofs.MessageMain.
Import ListNotations.

Section Fwd.
Variable S : sig.
Variable LI : (D S -> D S) -> D S.
Hypothesis L : group_laws S.
Hypothesis X : exact_integral S LI.
Notation mixed := (mixed S).

Lemma X_scope : scope_law S.
Proof. intros f d d2 k n items b H. eapply ei_scope; eauto. Qed.

(** ** Evaluation depends on the scope only *)
Lemma ev_local (m : mixed) w w' : mwf m -> (forall x, In x (m_items m) -> w x = w' x) -> ev m w = ev m w'.
Proof.
  intros Hm H. rewrite !ev_total by auto. unfold total. f_equal. apply map_ext_in.
  intros [b v] Hb. unfold signed, fval. simpl.
  assert (E : map w (bscope S b) = map w' (bscope S b)).
  { apply map_ext_in. intros x Hx. apply H. apply (mwf_scope _ _ Hm b); auto.
    unfold factors in Hb. now apply in_combine_l in Hb. }
  now rewrite E.
Qed.

(** ** Normal-only messages *)
Definition bare (cg : cgraph S) : Prop := forall e, In e (cg_edges cg) -> factors (e_belief e) = [].

Lemma F2_upd {A} (R : A -> A -> Prop) l i x y : (forall a, R a a) -> nth_error l i = Some x -> R x y ->
  Forall2 R l (upd l i y).
Proof.
  intros HR. revert i. induction l as [|a l IH]; intros [|i] E H; simpl in *; try discriminate.
  - injection E as ->. constructor; auto. clear -HR. induction l; constructor; auto.
  - constructor; auto.
Qed.

Lemma same_edge_refl e : same_edge S e e.
Proof. split; auto. split; auto. apply same_refl. Qed.

Lemma pass_nonly (cg cg' : cgraph S) k f : cgwf S cg -> bare cg ->
  passMessage cg k f true = Ok cg' -> same_cg S cg cg'.
Proof.
  intros W Hb E. unfold passMessage in E. apply bind_Ok in E. destruct E as (e & Ee & E).
  unfold vec_get in Ee. destruct (nth_error (cg_edges cg) k) as [e'|] eqn:En; [|discriminate].
  injection Ee as ->. pose proof (nth_error_In _ _ En) as Hin.
  destruct (cw_edges S cg W e Hin) as (We & i & j & ci & cj & Hf & Hs & Hi & Hj & Ii & Ij).
  apply bind_Ok in E. destruct E as (csi & Esi & E).
  unfold projectClusterOntoEdge, margin in E. cbn [bind e_belief] in E.
  apply bind_Ok in E. destruct E as (csj & Esj & E).
  apply bind_Ok in E. destruct E as (proper & _ & E). destruct proper; [|discriminate].
  injection E as <-.
  set (b := setNormal (mixed_of_items (m_items (e_belief e))) (n_margin (m_normal csi) (m_items (e_belief e)))) in *.
  assert (Wb : mwf b).
  { unfold b, setNormal. simpl. split; simpl; auto; [apply We|intros ? []]. }
  assert (Fe : factors (e_belief e) = []) by auto.
  assert (Hj' : exists sj, (if f then e_second e else e_first e) = Z.of_nat sj /\
     nth_error (cg_clusters cg) sj = Some csj /\ incl (m_items (e_belief e)) (m_items csj)).
  { destruct f; [rewrite Hs in *; exists j|rewrite Hf in *; exists i]; (split; [auto|]).
    - rewrite (zat_Ok _ _ _ Hj) in Esj. injection Esj as <-. auto.
    - rewrite (zat_Ok _ _ _ Hi) in Esj. injection Esj as <-. auto. }
  destruct Hj' as (sj & Hsj & Nsj & Isj). rewrite Hsj, Nat2Z.id.
  assert (Wsj : mwf csj) by (apply W; eapply nth_error_In; eauto).
  split; simpl.
  - apply F2_upd with csj; auto; [apply same_refl|].
    assert (Wm : mwf (mixed_mul csj b)) by (apply mwf_mul; auto).
    assert (Im : m_items (mixed_mul csj b) = m_items csj) by now apply mul_items.
    split; [|split].
    + rewrite div_items by auto. auto.
    + rewrite factors_div, factors_mul by auto. rewrite Fe. simpl. now rewrite !app_nil_r.
    + intros _. apply mwf_div; auto. now rewrite Im.
  - apply F2_upd with e; auto; [apply same_edge_refl|].
    split; auto. split; auto. simpl. split; [|split]; auto.
Qed.

Lemma same_bare cg cg' : same_cg S cg cg' -> bare cg -> bare cg'.
Proof.
  intros [_ H] Hb e He. destruct (F2_In _ _ _ _ H He) as (e0 & He0 & (_ & _ & (_ & Hf & _))).
  rewrite Hf. auto.
Qed.

Lemma same_cg_refl cg : same_cg S cg cg.
Proof.
  split.
  - induction (cg_clusters cg); constructor; auto. apply same_refl.
  - induction (cg_edges cg); constructor; auto. apply same_edge_refl.
Qed.

Lemma cal_nonly (cg cg' : cgraph S) f : cgwf S cg -> bare cg ->
  calibrateInternal cg f true = Ok cg' -> same_cg S cg cg'.
Proof.
  intros W Hb E. unfold calibrateInternal in E.
  assert (G : forall ids c c', cgwf S c -> bare c ->
     foldM (fun c k => passMessage c k f true) ids c = Ok c' -> same_cg S c c').
  { clear. intros ids. induction ids as [|k ids IH]; intros c c' W Hb E; simpl in E.
    - injection E as <-. apply same_cg_refl.
    - apply bind_Ok in E. destruct E as (c1 & E1 & E). apply pass_nonly in E1; auto.
      eapply same_cg_trans; [exact E1|]. apply IH; auto.
      + eapply same_cgwf; eauto.
      + eapply same_bare; eauto. }
  eapply G; eauto.
Qed.

Lemma setnormal_same (cg cg' : cgraph S) mean prec : cgwf S cg -> bare cg ->
  cg_setNormalApprox cg mean prec = Ok cg' -> same_cg S cg cg'.
Proof.
  intros W Hb E. unfold cg_setNormalApprox in E.
  apply bind_Ok in E. destruct E as (clusters & E1 & E).
  apply bind_Ok in E. destruct E as (edges & E2 & E).
  apply bind_Ok in E. destruct E as (cg1 & E3 & E).
  apply bind_Ok in E. destruct E as (cg2 & E4 & E). injection E as <-.
  pose proof (set_same S cg mean prec clusters edges E1 E2) as S0.
  pose proof (same_cgwf S _ _ S0 W) as W0. pose proof (same_bare _ _ S0 Hb) as B0.
  pose proof (cal_nonly _ _ _ W0 B0 E3) as S1.
  pose proof (same_cgwf S _ _ S1 W0) as W1. pose proof (same_bare _ _ S1 B0) as B1.
  pose proof (cal_nonly _ _ _ W1 B1 E4) as S2.
  eapply same_cg_trans; [exact S0|]. eapply same_cg_trans; [exact S1|].
  eapply same_cg_trans; [exact S2|]. apply fix_same.
Qed.

(** ** The forward pass *)
Variables (scopes : list (list Z)) (items es : list Z) (cls seps : list (list Z)).
Hypothesis Hel : elim (scopes_graph scopes items) es cls seps.
Let Hwf := scopes_graph_wf scopes items.

Record fwd (k : nat) (cg : cgraph S) : Prop := {
  f_items : map m_items (cg_clusters cg) = cls;
  f_wf : forall c, In c (cg_clusters cg) -> mwf c;
  f_ne : length (cg_edges cg) = length seps;
  f_edge : forall i s, (k <= i)%nat -> nth_error seps i = Some s ->
    exists p eb, nth_error (cg_edges cg) i = Some (mkEdge (Z.of_nat i) (Z.of_nat p) eb) /\
      first_containing cls i s p /\ mwf eb /\ m_items eb = s /\ factors eb = []
}.

Definition tailsum (k : nat) (cg : cgraph S) (w : Z -> D S) : D S :=
  dsumS S (map (fun c => ev c w) (skipn k (cg_clusters cg))).

Lemma skipn_nth {A} (l : list A) k x : nth_error l k = Some x -> skipn k l = x :: skipn (k + 1) l.
Proof.
  revert k. induction l as [|y l IH]; intros [|k] H; simpl in *; try discriminate.
  - now injection H as ->.
  - now apply IH.
Qed.
Lemma skipn_upd {A} (l : list A) k i x : (k <= i)%nat -> skipn k (upd l i x) = upd (skipn k l) (i - k) x.
Proof.
  revert k i. induction l as [|y l IH]; intros [|k] [|i] H; simpl; auto; try lia.
  apply IH. lia.
Qed.

Lemma cl_nth (cg : cgraph S) k c : map m_items (cg_clusters cg) = cls -> nth_error cls k = Some c ->
  exists m, nth_error (cg_clusters cg) k = Some m /\ m_items m = c.
Proof.
  intros Hc Hk. rewrite <- Hc in Hk.
  destruct (nth_error (cg_clusters cg) k) as [m|] eqn:Em.
  - rewrite (map_nth_error _ _ _ Em) in Hk. injection Hk as <-. eauto.
  - apply nth_error_None in Em.
    assert (k < length (map m_items (cg_clusters cg)))%nat by (apply nth_error_Some; congruence).
    rewrite map_length in *. lia.
Qed.

Lemma fwd_step k e s cg cg' : fwd k cg -> nth_error es k = Some e -> nth_error seps k = Some s ->
  passMessage cg k true false = Ok cg' ->
  fwd (k + 1) cg' /\ forall w, tailsum (k + 1) cg' w = LI (fun u => tailsum k cg (set_item S w e u)).
Proof.
  intros F He Hs E.
  destruct (f_edge k cg F k s (le_n _) Hs) as (p & eb & Ne & (Hkp & (cp & Hcp & Hscp) & Hfst) & Web & Ieb & Feb).
  destruct (elim_cluster _ _ _ _ Hel Hwf k e s He Hs) as (c & Hc & Hcin & Hes & Hnds & Hlater).
  destruct (cl_nth cg k c (f_items _ _ F) Hc) as (ck & Nk & Ik).
  destruct (cl_nth cg p cp (f_items _ _ F) Hcp) as (mp & Np & Ip).
  assert (Wk : mwf ck) by (apply (f_wf _ _ F); eapply nth_error_In; eauto).
  assert (Wp : mwf mp) by (apply (f_wf _ _ F); eapply nth_error_In; eauto).
  unfold passMessage in E. rewrite (vec_get_Ok _ _ _ Ne) in E. cbn [bind e_first e_second e_belief] in E.
  rewrite (zat_Ok _ _ _ Nk) in E. cbn [bind] in E. unfold projectClusterOntoEdge in E.
  cbn [bind e_first e_second e_belief] in E. rewrite Ieb in E.
  apply bind_Ok in E. destruct E as (e1 & E1 & E). apply bind_Ok in E1. destruct E1 as (b & Em & E1).
  injection E1 as <-. rewrite (zat_Ok _ _ _ Np) in E. cbn [bind e_belief] in E.
  apply bind_Ok in E. destruct E as (proper & _ & E). destruct proper; [|discriminate].
  injection E as <-. rewrite Nat2Z.id.
  assert (Isk : incl s (m_items ck)) by (rewrite Ik; intros x Hx; apply Hcin; auto).
  destruct (margin_wf S ck b s false X_scope Wk Hnds Isk Em) as [Wb Ib].
  assert (Hdiff : findItemsDifference (m_items ck) s = [e]).
  { assert (Hnd : NoDup (findItemsDifference (m_items ck) s)) by apply findItemsDifference_NoDup, Wk.
    assert (Hi : forall x, In x (findItemsDifference (m_items ck) s) <-> x = e).
    { intros x. rewrite findItemsDifference_In, Ik, Hcin. split; [tauto|]. intros ->. tauto. }
    destruct (findItemsDifference (m_items ck) s) as [|x [|y l]].
    - exfalso. apply (proj2 (Hi e)). auto.
    - f_equal. apply Hi. now left.
    - exfalso. inversion Hnd as [|? ? Hn _]; subst. apply Hn.
      assert (x = e) by (apply Hi; now left). assert (y = e) by (apply Hi; right; now left).
      subst. now left. }
  assert (Hbev : forall w, ev b w = LI (fun u => ev ck (set_item S w e u))).
  { intros w. unfold margin in Em. rewrite Hdiff in Em.
    rewrite (integrate_fold_ev S LI X L [e] ck b Wk); auto.
    - repeat constructor; auto.
    - intros x [<-|[]]. rewrite Ik. apply Hcin. auto. }
  assert (Wm : mwf (mixed_mul mp b)).
  { apply mwf_mul; auto. intros x Hx. rewrite Ip. apply Hscp, Ib, Hx. }
  assert (Im : m_items (mixed_mul mp b) = m_items mp) by now apply mul_items.
  set (mp' := mixed_div (mixed_mul mp b) eb) in *.
  assert (Wp' : mwf mp') by (apply mwf_div; auto; rewrite Im, Ip, Ieb; auto).
  assert (Ip' : m_items mp' = m_items mp) by (unfold mp'; rewrite div_items by auto; auto).
  assert (Ev' : forall w, ev mp' w = dadd S (ev mp w) (ev b w)).
  { intros w. unfold mp'. rewrite ev_div, ev_mul by auto. rewrite (ev_total S L eb). rewrite Feb.
    unfold total, dsumS. simpl. dgroup L. }
  split.
  - split; simpl.
    + rewrite upd_map, Ip'. rewrite upd_same; [apply F|]. now apply map_nth_error.
    + intros c' Hc'. apply upd_In in Hc'. destruct Hc' as [->|Hc']; auto. now apply (f_wf _ _ F).
    + rewrite upd_length. apply F.
    + intros i s' Hi Hs'. rewrite nth_error_upd_neq by lia. apply (f_edge _ _ F); auto. lia.
  - intros w. unfold tailsum. simpl. rewrite skipn_upd by lia.
    assert (Np' : nth_error (skipn (k + 1) (cg_clusters cg)) (p - (k + 1)) = Some mp).
    { rewrite nth_error_skipn'. now replace (k + 1 + (p - (k + 1)))%nat with p by lia. }
    pose proof (sum_upd S L (fun c => ev c w) _ _ mp' mp Np') as Hu. simpl in Hu. rewrite Ev' in Hu.
    transitivity (dadd S (dsumS S (map (fun c => ev c w) (skipn (k + 1) (cg_clusters cg)))) (ev b w)).
    { apply (d_move S L _ _ _ _ Hu). dgroup L. }
    rewrite Hbev, <- (ei_shift _ _ X). apply (ei_ext _ _ X). intros u.
    rewrite (skipn_nth _ _ _ Nk). simpl. unfold dsumS at 2. simpl.
    fold (dsumS S (map (fun c0 => ev c0 (set_item S w e u)) (skipn (k + 1) (cg_clusters cg)))).
    rewrite (gl_comm S L). f_equal. f_equal. apply map_ext_in. intros m Hm.
    apply ev_local.
    + apply (f_wf _ _ F). rewrite <- (firstn_skipn (k + 1) (cg_clusters cg)). apply in_or_app. now right.
    + intros x Hx. unfold set_item. destruct (Z.eqb_spec x e) as [->|]; auto. exfalso.
      apply In_nth_error in Hm. destruct Hm as [n Hn]. rewrite nth_error_skipn' in Hn.
      apply (Hlater (k + 1 + n)%nat (m_items m)); auto; [lia|].
      rewrite <- (f_items _ _ F). now apply map_nth_error.
Qed.

Lemma fwd_fold : forall n k cg cg' F, (k + n = length seps)%nat -> fwd k cg ->
  (forall w, tailsum k cg w = iterated S LI (firstn k es) F w) ->
  foldM (fun c k => passMessage c k true false) (seq k n) cg = Ok cg' ->
  fwd (length seps) cg' /\ forall w, tailsum (length seps) cg' w = iterated S LI es F w.
Proof.
  destruct (elim_lengths Hel) as [HL1 HL2].
  induction n as [|n IH]; intros k cg cg' F Hk W HV E.
  - simpl in E. injection E as <-. rewrite Nat.add_0_r in Hk. subst k. split; auto.
    intros w. rewrite HV. rewrite <- HL2, firstn_all. reflexivity.
  - simpl in E. apply bind_Ok in E. destruct E as (cg1 & E1 & E).
    destruct (nth_error seps k) as [s|] eqn:Es; [|apply nth_error_None in Es; lia].
    destruct (nth_error es k) as [e|] eqn:Ee; [|apply nth_error_None in Ee; lia].
    destruct (fwd_step k e s cg cg1 W Ee Es E1) as [W1 V1].
    replace (Datatypes.S k) with (k + 1)%nat in E by lia.
    apply (IH (k + 1)%nat cg1 cg'); auto; [lia|].
    intros w. rewrite V1.
    assert (Hf : firstn (k + 1) es = firstn k es ++ [e]).
    { clear -Ee. revert k Ee. induction es as [|x l IH]; intros [|k] H; simpl in *; try discriminate.
      - now injection H as ->.
      - f_equal. now apply IH. }
    rewrite Hf. unfold iterated. rewrite fold_left_app. simpl. unfold int_out at 1.
    apply (ei_ext _ _ X). intros u. apply HV.
Qed.
End Fwd.

Section Main11.
Variable S : sig.
Variable LI : (D S -> D S) -> D S.
Hypothesis L : group_laws S.
Hypothesis X : exact_integral S LI.

Lemma last_value (m : mixed S) v : mwf m -> mixed_logNormalizingConstant m = Ok v ->
  forall w, v = iterated S LI (findItemsDifference (m_items m) []) (ev m) w.
Proof.
  intros Hm E w. unfold mixed_logNormalizingConstant in E. apply bind_Ok in E.
  destruct E as (m' & E1 & E).
  assert (HL : scope_law S) by apply (X_scope S LI X).
  destruct (margin_wf S m m' [] false HL Hm) as [W' I']; auto; [constructor|intros ? []|].
  assert (Hn : m_items m' = []).
  { destruct (m_items m') as [|x l]; auto. exfalso. apply (I' x). now left. }
  pose proof (evaluate_ev S m' w W') as Ev. rewrite Hn in Ev. simpl in Ev. rewrite Ev in E.
  injection E as <-. unfold margin in E1.
  apply (integrate_fold_ev S LI X L) with (4 := E1); auto.
  - apply findItemsDifference_NoDup, Hm.
  - intros x Hx. apply findItemsDifference_In in Hx. tauto.
Qed.

Lemma C11_order (fs : list (B S)) cg mean prec v :
  scopes_ok fs -> build fs = Ok cg -> computeLogNormalizingConstant cg mean prec = Ok v ->
  exists order, NoDup order /\ (forall x, In x order <-> exists f, In f fs /\ In x (bscope S f)) /\
    forall w, v = iterated S LI order (fun w => dsumS S (map (fval S w) fs)) w.
Proof.
  intros Hok E0 E.
  destruct (build_ok S fs Hok) as (cg' & items & es & cls & seps & E' & Hsh & Hp).
  rewrite E0 in E'. injection E' as <-.
  pose proof (sh_elim _ _ _ _ _ _ _ Hsh) as Hel.
  pose proof (scopes_graph_wf (map (bscope S) fs) items) as Hwf.
  destruct (elim_lengths Hel) as [HL1 HL2].
  unfold computeLogNormalizingConstant in E. apply bind_Ok in E. destruct E as (cg1 & E1 & E).
  apply bind_Ok in E. destruct E as (cg2 & E2 & E).
  assert (W0 : cgwf S cg) by (destruct (build_inv S L fs cg (fun _ => dzero S) Hok E0); auto).
  assert (B0 : bare S cg).
  { intros e He. apply In_nth_error in He. destruct He as [i Hi].
    destruct (sh_edge_at S _ _ _ _ _ _ Hsh i e Hi) as (s & p & _ & _ & ->). reflexivity. }
  pose proof (setnormal_same S cg cg1 mean prec W0 B0 E1) as S1.
  assert (F0 : fwd S cls seps 0 cg1).
  { destruct S1 as [S1a S1b]. split.
    - rewrite <- (sh_clusters _ _ _ _ _ _ _ Hsh). eapply F2_map; [exact S1a|]. intros x y (H & _). exact H.
    - intros c Hc. destruct (F2_In _ _ _ _ S1a Hc) as (c0 & Hc0 & (_ & _ & Hw)).
      apply Hw, (sh_wf _ _ _ _ _ _ _ Hsh), Hc0.
    - rewrite <- (sh_nedges _ _ _ _ _ _ _ Hsh). symmetry. clear -S1b. induction S1b; simpl; auto.
    - intros i s _ Hi. destruct (sh_edge _ _ _ _ _ _ _ Hsh i s Hi) as (p & He & Hfc).
      destruct (F2_nth _ _ _ _ _ S1b He) as ([f0 s0 b0] & He' & (A1 & A2 & (A3 & A4 & A5))).
      simpl in *. subst f0 s0. exists p, b0. split; auto. split; auto. split.
      + apply A5. apply mwf_of_items.
        destruct (nth_error es i) as [e|] eqn:Ee.
        * destruct (elim_cluster _ _ _ _ Hel Hwf i e s Ee Hi) as (? & _ & _ & _ & H & _). exact H.
        * apply nth_error_None in Ee. assert (i < length seps)%nat by (apply nth_error_Some; congruence). lia.
      + split; auto. }
  assert (V0 : forall w, tailsum S 0 cg1 w = iterated S LI (firstn 0 es) (fun w => dsumS S (map (fval S w) fs)) w).
  { intros w. unfold tailsum. simpl. unfold iterated. simpl.
    transitivity (dsumS S (map (fun c => ev c w) (cg_clusters cg))).
    - f_equal. destruct S1 as [S1a _]. eapply F2_map; [exact S1a|]. intros; now apply same_ev.
    - rewrite total_concat, (total_perm S L w _ _ Hp), total_plain; auto. }
  unfold calibrateForward, calibrateInternal in E2. rewrite (f_ne _ _ _ _ _ F0) in E2.
  destruct (fwd_fold S LI L X _ _ _ _ _ Hel (length seps) 0 cg1 cg2 _ eq_refl F0 V0 E2) as [F1 V1].
  destruct (elim_last _ _ _ _ Hel Hwf) as (cl & Hcl & Hcov & Hdis).
  destruct (cl_nth S cls cg2 _ _ (f_items _ _ _ _ _ F1) Hcl) as (ml & Nl & Il).
  assert (Hlen : length (cg_clusters cg2) = Datatypes.S (length seps)).
  { rewrite <- (map_length m_items), (f_items _ _ _ _ _ F1). auto. }
  unfold cg_logNormalizingConstant in E.
  replace (Z.of_nat (length (cg_clusters cg2)) - 1)%Z with (Z.of_nat (length seps)) in E by lia.
  rewrite (zat_Ok _ _ _ Nl) in E. cbn [bind] in E.
  assert (Wl : mwf ml) by (apply (f_wf _ _ _ _ _ F1); eapply nth_error_In; eauto).
  exists (es ++ findItemsDifference (m_items ml) []).
  assert (Hin : forall x, In x (findItemsDifference (m_items ml) []) <-> In x cl).
  { intros x. rewrite findItemsDifference_In, Il. simpl. tauto. }
  split; [|split].
  - assert (N1 : NoDup es) by (eapply elim_es_NoDup; eauto).
    assert (N2 : NoDup (findItemsDifference (m_items ml) [])) by apply findItemsDifference_NoDup, Wl.
    assert (N3 : forall x, In x es -> ~ In x (findItemsDifference (m_items ml) [])).
    { intros x H1 H2. apply Hin in H2. apply Hdis in H2. auto. }
    clear -N1 N2 N3. induction es as [|x l IH]; simpl; auto. inversion N1; subst. constructor.
    + rewrite in_app_iff. intros [H|H]; auto. apply (N3 x); simpl; auto.
    + apply IH; auto. intros y Hy. apply N3. now right.
  - intros x. rewrite in_app_iff, Hin.
    transitivity (In x items).
    { split; [|intros H; now apply Hcov in H]. intros [H|H].
      - eapply (elim_es_In _ _ _ _ Hel); eauto.
      - eapply (elim_incl _ _ _ _ Hel Hwf cl); eauto. eapply nth_error_In; eauto. }
    rewrite (sh_items _ _ _ _ _ _ _ Hsh).
    split.
    + intros (s & Hs & Hx). apply in_map_iff in Hs. destruct Hs as (f & <- & Hf). eauto.
    + intros (f & Hf & Hx). exists (bscope S f). split; auto. now apply in_map.
  - intros w. rewrite (last_value ml v Wl E w). unfold iterated at 2. rewrite fold_left_app.
    fold (iterated S LI es (fun w => dsumS S (map (fval S w) fs))).
    fold (iterated S LI (findItemsDifference (m_items ml) []) (iterated S LI es (fun w => dsumS S (map (fval S w) fs))) w).
    apply (iterated_ext S LI (ei_ext _ _ X)). intros w'. rewrite <- V1. unfold tailsum.
    rewrite (skipn_nth _ _ _ Nl). rewrite skipn_all2 by lia. unfold dsumS. simpl. dgroup L.
Qed.
End Main11.

(** Order of integration. *)
Section Perm.
Variable S : sig.
Variable LI : (D S -> D S) -> D S.
Hypothesis Hx : forall f g, (forall u, f u = g u) -> LI f = LI g.

Definition ext (F : (Z -> D S) -> D S) : Prop :=
  forall w w', (forall x, w x = w' x) -> F w = F w'.

Lemma int_out_ext v F : ext F -> ext (int_out S LI v F).
Proof.
  intros HF w w' H. unfold int_out. apply Hx. intros u. apply HF. intros x. unfold set_item.
  destruct (x =? v)%Z; auto.
Qed.
Lemma iterated_ext2 order : forall F, ext F -> ext (iterated S LI order F).
Proof.
  unfold iterated. induction order as [|v order IH]; intros F HF; simpl; auto.
  apply IH. now apply int_out_ext.
Qed.

Lemma iterated_perm : fubini S LI -> forall o1 o2, Permutation o1 o2 -> forall F, ext F ->
  forall w, iterated S LI o1 F w = iterated S LI o2 F w.
Proof.
  intros Fu o1 o2 H. induction H; intros F HF w.
  - reflexivity.
  - unfold iterated. simpl. apply IHPermutation. now apply int_out_ext.
  - unfold iterated. simpl. apply (iterated_ext S LI Hx). intros w'. clear w.
    unfold int_out. destruct (Z.eq_dec x y) as [->|Hne]; auto.
    rewrite Fu. apply Hx. intros u. apply Hx. intros v. apply HF. intros z.
    unfold set_item. destruct (Z.eqb_spec z x), (Z.eqb_spec z y); auto. congruence.
  - rewrite IHPermutation1; auto.
Qed.

Lemma total_ext fs : ext (fun w => dsumS S (map (fval S w) fs)).
Proof.
  intros w w' H. f_equal. apply map_ext. intros f. unfold fval. f_equal. now apply map_ext.
Qed.
End Perm.

Lemma C11_main : forall S LI, group_laws S -> exact_integral S LI ->
  forall (fs : list (B S)) cg mean prec v, scopes_ok fs -> build fs = Ok cg ->
  computeLogNormalizingConstant cg mean prec = Ok v ->
  (exists order, NoDup order /\ (forall x, In x order <-> exists f, In f fs /\ In x (bscope S f)) /\
    forall w, v = iterated S LI order (fun w => dsumS S (map (fval S w) fs)) w) /\
  (fubini S LI -> forall order, NoDup order ->
    (forall x, In x order <-> exists f, In f fs /\ In x (bscope S f)) ->
    forall w, v = iterated S LI order (fun w => dsumS S (map (fval S w) fs)) w).
Proof.
  intros S LI L X fs cg mean prec v Hok E0 E.
  destruct (C11_order S LI L X fs cg mean prec v Hok E0 E) as (o & Hn & Ho & Hv).
  split; [eauto|]. intros Fu o' Hn' Ho' w. rewrite (Hv w).
  apply iterated_perm; auto.
  - apply X.
  - apply Permutation_NoDup_ext; auto. intros x. now rewrite Ho, Ho'.
  - apply total_ext.
Qed.
