(** C58: how the errors of the integrations add up in the forward pass. *)
From Coq Require Import String List ZArith Bool Lia Arith Sorted Permutation Reals Lra.
From Verif Require Import Model.Base Model.Items Model.Vectors Model.Mixed Model.MultiNormal Model.NormalSig Model.ClusterGraph
  Model.Family Model.GLMM Model.SplitFrame Model.LfunSR
  Spec.GraphSpec Spec.ElimSpec Spec.BeliefSpec Spec.TreeSpec Spec.IntegralSpec Spec.MessageSpec Spec.Toy Spec.ErrorSpec
  Spec.Numbers Spec.FamilySpec Spec.GLMMSpec Spec.SplitSpec Spec.ISSpec Spec.MixedSpec Spec.DensitySpec Spec.TotalSpec Spec.LfunSpec
  Proofs.ListLemmas Proofs.ItemsLemmas Proofs.ElimLemmas Proofs.MixedLemmas Proofs.BuildLemmas
  Proofs.ClusterMain Proofs.GroupTac Proofs.MessageLemmas Proofs.MessageMain Proofs.ForwardLemmas Proofs.LfunMain.
Import ListNotations.

Section Near.
Variable S : sig.
Variable near : nat -> D S -> D S -> Prop.
Variable LI : (D S -> D S) -> D S.
Hypothesis L : group_laws S.
Hypothesis X : near_integral S near LI.
Notation mixed := (mixed S).

Lemma N_scope : scope_law S.
Proof. intros f d d2 k n items b H. eapply ni_scope; eauto. Qed.
Lemma near_eq k a a' b : a = a' -> near k a' b -> near k a b.
Proof. now intros ->. Qed.
Lemma near_eqr k a b b' : b = b' -> near k a b' -> near k a b.
Proof. now intros ->. Qed.

Lemma iterated_near k : forall order F G, (forall w, near k (F w) (G w)) ->
  forall w, near k (iterated S LI order F w) (iterated S LI order G w).
Proof.
  unfold iterated. induction order as [|v order IH]; intros F G H w; simpl; auto.
  apply IH. intros w'. unfold int_out. apply (ni_close _ _ _ X). intros u. apply H.
Qed.

Lemma integrate_near (m m' : mixed) i : mwf m -> In i (m_items m) ->
  integrate m i = Ok m' -> forall w, near 1 (ev m' w) (LI (fun u => ev m (set_item S w i u))).
Proof.
  intros Hm Hi E w. unfold integrate in E. apply bind_Ok in E. destruct E as (b & Eb & E).
  injection E as <-. pose proof (ni_scope _ _ _ X _ _ _ _ _ _ _ Eb) as Hs.
  rewrite ev_total by auto. unfold factors, setNormal, mixed_of_belief, total; simpl.
  unfold signed, fval, dsumS; simpl. rewrite (gl_zero S L).
  assert (Hnd : NoDup (m_items m)) by apply Hm.
  pose proof (erase_pos i (m_items m) Hnd Hi) as Her.
  apply (ni_value _ _ _ X _ _ _ _ _ _ _ Eb).
  - rewrite map_length. now rewrite Hs.
  - rewrite Her. unfold findRelativeItem. destruct (find_pos_In i _ Hi) as [k Ek]. rewrite Ek.
    apply find_pos_Some in Ek. clear -Ek Hnd.
    revert k Ek. induction Hnd as [|x l Hni Hnd IH]; intros [|k] Ek; simpl in *; try discriminate; [lia|].
    destruct (Z.eqb_spec x i) as [->|]; [exfalso; apply Hni; now apply nth_error_In in Ek|].
    simpl. apply IH in Ek. lia.
  - intros u. rewrite Hs, Her, put_map by auto. now apply evaluate_ev.
Qed.

Lemma integrate_fold_near : forall is (m m' : mixed), mwf m -> NoDup is -> incl is (m_items m) ->
  foldM integrate is m = Ok m' -> forall w, near (length is) (ev m' w) (iterated S LI is (ev m) w).
Proof.
  induction is as [|i is IH]; intros m m' Hm Hnd Hi E w.
  - injection E as <-. apply (ni_refl _ _ _ X).
  - simpl in E. apply bind_Ok in E. destruct E as (m1 & E1 & E).
    inversion Hnd as [|? ? Hni Hnd']; subst.
    assert (Him : In i (m_items m)) by (apply Hi; now left).
    destruct (integrate_wf S m m1 i N_scope Hm Him E1) as (W1 & I1 & F1).
    replace (length (i :: is)) with (length is + 1)%nat by (simpl; lia).
    apply (ni_trans _ _ _ X) with (iterated S LI is (ev m1) w).
    + apply IH; auto. intros x Hx. rewrite I1. apply filter_In. split; [apply Hi; now right|].
      destruct (Z.eqb_spec x i); auto. subst; tauto.
    + change (iterated S LI (i :: is) (ev m) w) with (iterated S LI is (int_out S LI i (ev m)) w).
      apply iterated_near. intros w'. unfold int_out. eapply integrate_near; eauto.
Qed.

Variables (scopes : list (list Z)) (items es : list Z) (cls seps : list (list Z)).
Hypothesis Hel : elim (scopes_graph scopes items) es cls seps.
Let Hwf := scopes_graph_wf scopes items.
Notation fwd := (fwd S cls seps).
Notation tailsum := (tailsum S).

Lemma near_step k e s cg cg' : fwd k cg -> nth_error es k = Some e -> nth_error seps k = Some s ->
  passMessage cg k true false = Ok cg' ->
  fwd (k + 1) cg' /\ forall w, near 1 (tailsum (k + 1) cg' w) (LI (fun u => tailsum k cg (set_item S w e u))).
Proof.
  intros F He Hs E.
  destruct (f_edge S cls seps k cg F k s (le_n _) Hs) as (p & eb & Ne & (Hkp & (cp & Hcp & Hscp) & Hfst) & Web & Ieb & Feb).
  destruct (elim_cluster _ _ _ _ Hel Hwf k e s He Hs) as (c & Hc & Hcin & Hes & Hnds & Hlater).
  destruct (cl_nth S cls cg k c (f_items _ _ _ _ _ F) Hc) as (ck & Nk & Ik).
  destruct (cl_nth S cls cg p cp (f_items _ _ _ _ _ F) Hcp) as (mp & Np & Ip).
  assert (Wk : mwf ck) by (apply (f_wf _ _ _ _ _ F); eapply nth_error_In; eauto).
  assert (Wp : mwf mp) by (apply (f_wf _ _ _ _ _ F); eapply nth_error_In; eauto).
  unfold passMessage in E. rewrite (vec_get_Ok _ _ _ Ne) in E. cbn [bind e_first e_second e_belief] in E.
  rewrite (zat_Ok _ _ _ Nk) in E. cbn [bind] in E. unfold projectClusterOntoEdge in E.
  cbn [bind e_first e_second e_belief] in E. rewrite Ieb in E.
  apply bind_Ok in E. destruct E as (e1 & E1 & E). apply bind_Ok in E1. destruct E1 as (b & Em & E1).
  injection E1 as <-. rewrite (zat_Ok _ _ _ Np) in E. cbn [bind e_belief] in E.
  apply bind_Ok in E. destruct E as (proper & _ & E). destruct proper; [|discriminate].
  injection E as <-. rewrite Nat2Z.id.
  assert (Isk : incl s (m_items ck)) by (rewrite Ik; intros x Hx; apply Hcin; auto).
  destruct (margin_wf S ck b s false N_scope Wk Hnds Isk Em) as [Wb Ib].
  assert (Hdiff : findItemsDifference (m_items ck) s = [e]).
  { assert (Hnd : NoDup (findItemsDifference (m_items ck) s)) by apply findItemsDifference_NoDup, Wk.
    assert (Hi : forall x, In x (findItemsDifference (m_items ck) s) <-> x = e).
    { intros x. rewrite findItemsDifference_In, Ik, Hcin. split; [tauto|]. intros ->. tauto. }
    destruct (findItemsDifference (m_items ck) s) as [|x [|y l]].
    - exfalso. apply (proj2 (Hi e)). auto.
    - f_equal. apply Hi. now left.
    - exfalso. inversion Hnd as [|? ? Hn _]; subst. apply Hn.
      assert (x = e) by (apply Hi; now left). assert (y = e) by (apply Hi; right; now left).
      subst. now left. }
  assert (Hbev : forall w, near 1 (ev b w) (LI (fun u => ev ck (set_item S w e u)))).
  { intros w. unfold margin in Em. rewrite Hdiff in Em.
    apply (integrate_fold_near [e] ck b Wk); auto.
    - repeat constructor; auto.
    - intros x [<-|[]]. rewrite Ik. apply Hcin. auto. }
  assert (Wm : mwf (mixed_mul mp b)).
  { apply mwf_mul; auto. intros x Hx. rewrite Ip. apply Hscp, Ib, Hx. }
  assert (Im : m_items (mixed_mul mp b) = m_items mp) by now apply mul_items.
  set (mp' := mixed_div (mixed_mul mp b) eb) in *.
  assert (Wp' : mwf mp') by (apply mwf_div; auto; rewrite Im, Ip, Ieb; auto).
  assert (Ip' : m_items mp' = m_items mp) by (unfold mp'; rewrite div_items by auto; auto).
  assert (Ev' : forall w, ev mp' w = dadd S (ev mp w) (ev b w)).
  { intros w. unfold mp'. rewrite ev_div, ev_mul by auto. rewrite (ev_total S L eb). rewrite Feb.
    unfold total, dsumS. simpl. dgroup L. }
  split.
  - split; simpl.
    + rewrite upd_map, Ip'. rewrite upd_same; [apply F|]. now apply map_nth_error.
    + intros c' Hc'. apply upd_In in Hc'. destruct Hc' as [->|Hc']; auto. now apply (f_wf _ _ _ _ _ F).
    + rewrite upd_length. apply F.
    + intros i s' Hi Hs'. rewrite nth_error_upd_neq by lia. apply (f_edge _ _ _ _ _ F); auto. lia.
  - intros w. unfold ForwardLemmas.tailsum. simpl. rewrite skipn_upd by lia.
    assert (Np' : nth_error (skipn (k + 1) (cg_clusters cg)) (p - (k + 1)) = Some mp).
    { rewrite nth_error_skipn'. now replace (k + 1 + (p - (k + 1)))%nat with p by lia. }
    pose proof (sum_upd S L (fun c => ev c w) _ _ mp' mp Np') as Hu. simpl in Hu. rewrite Ev' in Hu.
    apply near_eq with (dadd S (dsumS S (map (fun c => ev c w) (skipn (k + 1) (cg_clusters cg)))) (ev b w)).
    { apply (d_move S L _ _ _ _ Hu). dgroup L. }
    apply near_eqr with (dadd S (dsumS S (map (fun c => ev c w) (skipn (k + 1) (cg_clusters cg))))
                              (LI (fun u => ev ck (set_item S w e u)))); [|apply (ni_add _ _ _ X), Hbev].
    rewrite <- (ni_shift _ _ _ X). apply (ni_ext _ _ _ X). intros u.
    rewrite (skipn_nth _ _ _ Nk). simpl. unfold dsumS at 1. simpl.
    fold (dsumS S (map (fun c0 => ev c0 (set_item S w e u)) (skipn (k + 1) (cg_clusters cg)))).
    rewrite (gl_comm S L). f_equal. f_equal. apply map_ext_in. intros m Hm.
    apply ev_local; auto.
    + apply (f_wf _ _ _ _ _ F). rewrite <- (firstn_skipn (k + 1) (cg_clusters cg)). apply in_or_app. now right.
    + intros x Hx. unfold set_item. destruct (Z.eqb_spec x e) as [->|]; auto. exfalso.
      apply In_nth_error in Hm. destruct Hm as [n Hn]. rewrite nth_error_skipn' in Hn.
      apply (Hlater (k + 1 + n)%nat (m_items m)); auto; [lia|].
      rewrite <- (f_items _ _ _ _ _ F). now apply map_nth_error.
Qed.

Lemma near_fold : forall n k cg cg' F, (k + n = length seps)%nat -> fwd k cg ->
  (forall w, near k (tailsum k cg w) (iterated S LI (firstn k es) F w)) ->
  foldM (fun c k => passMessage c k true false) (seq k n) cg = Ok cg' ->
  fwd (length seps) cg' /\ forall w, near (length seps) (tailsum (length seps) cg' w) (iterated S LI es F w).
Proof.
  destruct (elim_lengths Hel) as [HL1 HL2].
  induction n as [|n IH]; intros k cg cg' F Hk W HV E.
  - simpl in E. injection E as <-. rewrite Nat.add_0_r in Hk. subst k. split; auto.
    intros w. specialize (HV w). rewrite <- HL2, firstn_all in HV. rewrite <- HL2. exact HV.
  - simpl in E. apply bind_Ok in E. destruct E as (cg1 & E1 & E).
    destruct (nth_error seps k) as [s|] eqn:Es; [|apply nth_error_None in Es; lia].
    destruct (nth_error es k) as [e|] eqn:Ee; [|apply nth_error_None in Ee; lia].
    destruct (near_step k e s cg cg1 W Ee Es E1) as [W1 V1].
    replace (Datatypes.S k) with (k + 1)%nat in E by lia.
    apply (IH (k + 1)%nat cg1 cg'); auto; [lia|].
    intros w. rewrite Nat.add_comm at 1. apply (ni_trans _ _ _ X) with (1 := V1 w).
    assert (Hf : firstn (k + 1) es = firstn k es ++ [e]).
    { clear -Ee. revert k Ee. induction es as [|x l IH]; intros [|k] H; simpl in *; try discriminate.
      - now injection H as ->.
      - f_equal. now apply IH. }
    rewrite Hf. unfold iterated. rewrite fold_left_app. simpl. unfold int_out at 1.
    apply (ni_close _ _ _ X). intros u. apply HV.
Qed.
End Near.

Section Main58.
Variable S : sig.
Variable near : nat -> D S -> D S -> Prop.
Variable LI : (D S -> D S) -> D S.
Hypothesis L : group_laws S.
Hypothesis X : near_integral S near LI.

Lemma last_near (m : mixed S) v : mwf m -> mixed_logNormalizingConstant m = Ok v ->
  forall w, near (length (findItemsDifference (m_items m) [])) v (iterated S LI (findItemsDifference (m_items m) []) (ev m) w).
Proof.
  intros Hm E w. unfold mixed_logNormalizingConstant in E. apply bind_Ok in E.
  destruct E as (m' & E1 & E).
  pose proof (N_scope S near LI X) as HL.
  destruct (margin_wf S m m' [] false HL Hm) as [W' I']; auto; [constructor|intros ? []|].
  assert (Hn : m_items m' = []).
  { destruct (m_items m') as [|x l]; auto. exfalso. apply (I' x). now left. }
  pose proof (evaluate_ev S m' w W') as Ev. rewrite Hn in Ev. simpl in Ev. rewrite Ev in E.
  injection E as <-. unfold margin in E1.
  apply (integrate_fold_near S near LI L X) with (4 := E1); auto.
  - apply findItemsDifference_NoDup, Hm.
  - intros x Hx. apply findItemsDifference_In in Hx. tauto.
Qed.

Lemma C58_order (fs : list (B S)) cg mean prec v :
  scopes_ok fs -> build fs = Ok cg -> computeLogNormalizingConstant cg mean prec = Ok v ->
  exists order, NoDup order /\ (forall x, In x order <-> exists f, In f fs /\ In x (bscope S f)) /\
    forall w, near (length order) v (iterated S LI order (fun w => dsumS S (map (fval S w) fs)) w).
Proof.
  intros Hok E0 E.
  destruct (build_ok S fs Hok) as (cg' & items & es & cls & seps & E' & Hsh & Hp).
  rewrite E0 in E'. injection E' as <-.
  pose proof (sh_elim _ _ _ _ _ _ _ Hsh) as Hel.
  pose proof (scopes_graph_wf (map (bscope S) fs) items) as Hwf.
  destruct (elim_lengths Hel) as [HL1 HL2].
  unfold computeLogNormalizingConstant in E. apply bind_Ok in E. destruct E as (cg1 & E1 & E).
  apply bind_Ok in E. destruct E as (cg2 & E2 & E).
  assert (W0 : cgwf S cg) by (destruct (build_inv S L fs cg (fun _ => dzero S) Hok E0); auto).
  assert (B0 : bare S cg).
  { intros e He. apply In_nth_error in He. destruct He as [i Hi].
    destruct (sh_edge_at S _ _ _ _ _ _ Hsh i e Hi) as (s & p & _ & _ & ->). reflexivity. }
  pose proof (setnormal_same S cg cg1 mean prec W0 B0 E1) as S1.
  assert (F0 : fwd S cls seps 0 cg1).
  { destruct S1 as [S1a S1b]. split.
    - rewrite <- (sh_clusters _ _ _ _ _ _ _ Hsh). eapply F2_map; [exact S1a|]. intros x y (H & _). exact H.
    - intros c Hc. destruct (F2_In _ _ _ _ S1a Hc) as (c0 & Hc0 & (_ & _ & Hw)).
      apply Hw, (sh_wf _ _ _ _ _ _ _ Hsh), Hc0.
    - rewrite <- (sh_nedges _ _ _ _ _ _ _ Hsh). symmetry. clear -S1b. induction S1b; simpl; auto.
    - intros i s _ Hi. destruct (sh_edge _ _ _ _ _ _ _ Hsh i s Hi) as (p & He & Hfc).
      destruct (F2_nth _ _ _ _ _ S1b He) as ([f0 s0 b0] & He' & (A1 & A2 & (A3 & A4 & A5))).
      simpl in *. subst f0 s0. exists p, b0. split; auto. split; auto. split.
      + apply A5. apply mwf_of_items.
        destruct (nth_error es i) as [e|] eqn:Ee.
        * destruct (elim_cluster _ _ _ _ Hel Hwf i e s Ee Hi) as (? & _ & _ & _ & H & _). exact H.
        * apply nth_error_None in Ee. assert (i < length seps)%nat by (apply nth_error_Some; congruence). lia.
      + split; auto. }
  assert (V0 : forall w, near 0 (tailsum S 0 cg1 w) (iterated S LI (firstn 0 es) (fun w => dsumS S (map (fval S w) fs)) w)).
  { intros w. apply near_eq with (dsumS S (map (fval S w) fs)); [|apply (ni_refl _ _ _ X)].
    unfold tailsum. simpl.
    transitivity (dsumS S (map (fun c => ev c w) (cg_clusters cg))).
    - f_equal. destruct S1 as [S1a _]. eapply F2_map; [exact S1a|]. intros; now apply same_ev.
    - rewrite total_concat, (total_perm S L w _ _ Hp), total_plain; auto. }
  unfold calibrateForward, calibrateInternal in E2. rewrite (f_ne _ _ _ _ _ F0) in E2.
  destruct (near_fold S near LI L X _ _ _ _ _ Hel (length seps) 0 cg1 cg2 _ eq_refl F0 V0 E2) as [F1 V1].
  destruct (elim_last _ _ _ _ Hel Hwf) as (cl & Hcl & Hcov & Hdis).
  destruct (cl_nth S cls cg2 _ _ (f_items _ _ _ _ _ F1) Hcl) as (ml & Nl & Il).
  assert (Hlen : length (cg_clusters cg2) = Datatypes.S (length seps)).
  { rewrite <- (map_length m_items), (f_items _ _ _ _ _ F1). auto. }
  unfold cg_logNormalizingConstant in E.
  replace (Z.of_nat (length (cg_clusters cg2)) - 1)%Z with (Z.of_nat (length seps)) in E by lia.
  rewrite (zat_Ok _ _ _ Nl) in E. cbn [bind] in E.
  assert (Wl : mwf ml) by (apply (f_wf _ _ _ _ _ F1); eapply nth_error_In; eauto).
  exists (es ++ findItemsDifference (m_items ml) []).
  assert (Hin : forall x, In x (findItemsDifference (m_items ml) []) <-> In x cl).
  { intros x. rewrite findItemsDifference_In, Il. simpl. tauto. }
  split; [|split].
  - assert (N1 : NoDup es) by (eapply elim_es_NoDup; eauto).
    assert (N2 : NoDup (findItemsDifference (m_items ml) [])) by apply findItemsDifference_NoDup, Wl.
    assert (N3 : forall x, In x es -> ~ In x (findItemsDifference (m_items ml) [])).
    { intros x H1 H2. apply Hin in H2. apply Hdis in H2. auto. }
    clear -N1 N2 N3. induction es as [|x l IH]; simpl; auto. inversion N1; subst. constructor.
    + rewrite in_app_iff. intros [H|H]; auto. apply (N3 x); simpl; auto.
    + apply IH; auto. intros y Hy. apply N3. now right.
  - intros x. rewrite in_app_iff, Hin.
    transitivity (In x items).
    { split; [|intros H; now apply Hcov in H]. intros [H|H].
      - eapply (elim_es_In _ _ _ _ Hel); eauto.
      - eapply (elim_incl _ _ _ _ Hel Hwf cl); eauto. eapply nth_error_In; eauto. }
    rewrite (sh_items _ _ _ _ _ _ _ Hsh).
    split.
    + intros (s & Hs & Hx). apply in_map_iff in Hs. destruct Hs as (f & <- & Hf). eauto.
    + intros (f & Hf & Hx). exists (bscope S f). split; auto. now apply in_map.
  - intros w. rewrite app_length, Nat.add_comm. apply (ni_trans _ _ _ X) with (1 := last_near ml v Wl E w).
    unfold iterated at 2. rewrite fold_left_app.
    fold (iterated S LI es (fun w => dsumS S (map (fval S w) fs))).
    fold (iterated S LI (findItemsDifference (m_items ml) []) (iterated S LI es (fun w => dsumS S (map (fval S w) fs))) w).
    apply (iterated_near S near LI X). intros w'. rewrite HL2. apply near_eq with (2 := V1 w'). unfold tailsum.
    rewrite (skipn_nth _ _ _ Nl). rewrite skipn_all2 by lia. unfold dsumS. simpl. dgroup L.
Qed.

Lemma C58_near_main (fs : list (B S)) cg mean prec v : scopes_ok fs -> build fs = Ok cg ->
  computeLogNormalizingConstant cg mean prec = Ok v ->
  (exists order, NoDup order /\ (forall x, In x order <-> exists f, In f fs /\ In x (bscope S f)) /\
    forall w, near (length order) v (iterated S LI order (fun w => dsumS S (map (fval S w) fs)) w)) /\
  (fubini S LI -> forall order, NoDup order ->
    (forall x, In x order <-> exists f, In f fs /\ In x (bscope S f)) ->
    forall w, near (length order) v (iterated S LI order (fun w => dsumS S (map (fval S w) fs)) w)).
Proof.
  intros Hok E0 E. destruct (C58_order fs cg mean prec v Hok E0 E) as (o & Hn & Ho & Hv).
  split; [eauto|]. intros Fu o' Hn' Ho' w.
  assert (Hp : Permutation o o') by (apply Permutation_NoDup_ext; auto; intros x; now rewrite Ho, Ho').
  rewrite <- (Permutation_length Hp). apply near_eqr with (2 := Hv w). symmetry.
  apply iterated_perm; auto.
  - apply X.
  - apply total_ext.
Qed.
End Main58.

(** * Real log-values *)
Local Open Scope R_scope.
Definition within (lo hi : R) (k : nat) (a b : R) : Prop := INR k * lo <= a - b <= INR k * hi.

Lemma within_integral inverse determinant isnormal T scope eval deriv deriv2 integral LI lo hi :
  log_integral LI -> @stores_within T scope eval integral LI lo hi ->
  near_integral (normal_sig inverse determinant isnormal T scope eval deriv deriv2 integral) (within lo hi) LI.
Proof.
  intros [Mono Shift] St.
  assert (Close : forall k f g, (forall u, within lo hi k (f u) (g u)) -> within lo hi k (LI f) (LI g)).
  { intros k f g H. unfold within in *. split.
    - assert (LI (fun u => INR k * lo + g u) <= LI f) by (apply Mono; intros u; specialize (H u); lra).
      rewrite Shift in H0. lra.
    - assert (LI f <= LI (fun u => INR k * hi + g u)) by (apply Mono; intros u; specialize (H u); lra).
      rewrite Shift in H0. lra. }
  constructor; cbn [normal_sig D dadd b_integral bscope beval].
  - intros a. unfold within. cbn. lra.
  - intros i j a b c. unfold within. rewrite plus_INR. intros H1 H2. split; nra.
  - intros k a b c. unfold within. intros H. lra.
  - intros f g H. apply Rle_antisym; apply Mono; intros u; rewrite H; apply Rle_refl.
  - exact Shift.
  - exact Close.
  - intros f d d2 k n items b E. exact (proj1 (St f d d2 k n items b E)).
  - intros f d d2 k n items b E x g Hl Hk H. destruct (St f d d2 k n items b E) as [_ G].
    unfold within. cbn [INR]. specialize (G x g Hl Hk).
    assert (forall u, f (insert_at u k x) = Ok (g u)).
    { intros u. rewrite <- (H u). f_equal. clear. revert x. induction k; intros [|y x]; cbn; auto. now rewrite IHk. }
    specialize (G H0). lra.
Qed.

Lemma C58_error_main : forall inverse determinant isnormal T scope eval deriv deriv2 integral LI lo hi,
  log_integral LI -> @stores_within T scope eval integral LI lo hi ->
  let S := normal_sig inverse determinant isnormal T scope eval deriv deriv2 integral in
  forall (fs : list T) (cg : cgraph S) mean prec v, (forall f, In f fs -> NoDup (scope f)) -> @build S fs = Ok cg ->
  computeLogNormalizingConstant cg mean prec = Ok v ->
  (exists order, NoDup order /\ (forall x, In x order <-> exists f, In f fs /\ In x (scope f)) /\
    forall w, INR (length order) * lo <= v - iterated S LI order (fun w => dsumS S (map (fval S w) fs)) w <= INR (length order) * hi) /\
  (fubini S LI -> forall order, NoDup order -> (forall x, In x order <-> exists f, In f fs /\ In x (scope f)) ->
    forall w, INR (length order) * lo <= v - iterated S LI order (fun w => dsumS S (map (fval S w) fs)) w <= INR (length order) * hi).
Proof.
  intros inverse determinant isnormal T scope eval deriv deriv2 integral LI lo hi HL St S fs cg mean prec v Hok E0 E.
  refine (C58_near_main S (within lo hi) LI _ (within_integral _ _ _ _ _ _ _ _ _ _ _ _ HL St) fs cg mean prec v Hok E0 E).
  split; cbn; intros; ring.
Qed.

Lemma near_shift S near LI (X : near_integral S near LI) c F : forall order w,
  iterated S LI order (fun w => dadd S c (F w)) w = dadd S c (iterated S LI order F w).
Proof.
  unfold iterated. induction order as [|v order IH] using rev_ind; intros w; [reflexivity|].
  rewrite !fold_left_app. cbn [fold_left]. unfold int_out at 1 3. rewrite <- (ni_shift _ _ _ X).
  apply (ni_ext _ _ _ X). intros u. apply IH.
Qed.

Lemma stored_within (p : GLMM.params Rnum) T t_scope t_eval integral LI lo hi : @stores_within T t_scope t_eval integral LI lo hi ->
  @stores_within (sr_belief T) (sr_scope T t_scope) (sr_eval T t_eval p)
    (fun f d d2 k n items => t <- integral f d d2 k n items ;; Ok (Stored t)) LI lo hi.
Proof.
  intros St f d d2 k n items b E. apply bind_Ok in E. destruct E as (t & E & E'). injection E' as <-. exact (St f d d2 k n items t E).
Qed.

Lemma C58_likelihood_main : forall inverse determinant isnormal T t_scope t_eval t_deriv t_deriv2 t_integral, determinants 1 determinant ->
  forall LI lo hi, log_integral LI -> @stores_within T t_scope t_eval t_integral LI lo hi ->
  forall fr m l P nSL s, regular fr -> no_empty fr -> (1 <= length (cs_cols (fr_Zt _ fr)))%nat -> (1 <= m)%nat ->
  (forall i, In i (fr_Lind _ fr) -> (1 <= i <= Z.of_nat m)%Z) -> inverse_link l P ->
  find_lfun_SR inverse determinant isnormal T t_scope t_eval t_deriv t_deriv2 t_integral fr m "binomial" (link_name l) nSL = Ok s ->
  forall laplace pars v, lfun_SR inverse determinant isnormal T t_scope t_eval t_deriv t_deriv2 t_integral laplace s pars = Ok v ->
  let S := sr_sig inverse determinant isnormal T t_scope t_eval t_deriv t_deriv2 t_integral
             (GLMM.mkParams Rnum (firstn m pars) (skipn m pars) (mkFamily l Binomial)) in
  fubini S LI ->
  forall w, let q := INR (cs_rows (fr_Zt _ fr)) in
    q * lo <= v - (q * (ln (sqrt (2 * PI)) - logSqrtTwoPi) +
       iterated S LI (effects fr) (joint_density P fr (skipn m pars) (firstn m pars)) w) <= q * hi.
Proof.
  intros inverse determinant isnormal T t_scope t_eval t_deriv t_deriv2 t_integral Det LI lo hi HL St
    fr m l P nSL s Reg Ne Obs Hm HLind HP Hs laplace pars v H S Fu w q.
  destruct (setup_inv _ _ _ _ _ _ _ _ _ _ _ _ _ _ _ Hs) as (_ & _ & Nf & Nr & _).
  unfold lfun_SR in H. rewrite Nf, Nr in H. destruct (Nat.eqb_spec (length pars) (fr_numFixed Rnum fr + m)) as [Hp|]; [|discriminate]. cbn [negb] in H.
  destruct (laplace pars) as ((ll & mean) & prec) eqn:El.
  apply bind_Ok in H. destruct H as (cg & Hg & H). apply bind_Ok in H. destruct H as (us & _ & H). apply bind_Ok in H. destruct H as (v' & Hv & H).
  unfold Rltb in H. destruct (Rlt_dec (ll / 2) v') as [|Hle]; [discriminate|]. injection H as ->.
  assert (Ep : pars_of T s pars = GLMM.mkParams Rnum (firstn m pars) (skipn m pars) (mkFamily l Binomial)).
  { destruct (p_parts inverse determinant isnormal T t_scope t_eval t_deriv t_deriv2 t_integral fr m nSL l P s Obs Hm HP Hs pars Hp) as (E1 & E2 & E3).
    destruct (pars_of T s pars) as [a b f]. cbn in E1, E2, E3. now subst. }
  subst S. rewrite <- Ep in Fu |- *.
  pose proof (run_scopes inverse determinant isnormal T t_scope t_eval t_deriv t_deriv2 t_integral fr m nSL l P s Reg Ne Obs Hm HLind HP Hs pars Hp) as (Sc & Cov & _).
  pose proof (within_integral inverse determinant isnormal _ _ _ (sr_deriv T t_deriv (pars_of T s pars)) (sr_deriv2 T t_deriv2 (pars_of T s pars)) _ LI lo hi HL (stored_within (pars_of T s pars) T t_scope t_eval t_integral LI lo hi St)) as X.
  set (S := sr_sig inverse determinant isnormal T t_scope t_eval t_deriv t_deriv2 t_integral (pars_of T s pars)) in *.
  pose proof (C58_near_main S (within lo hi) LI (sr_laws _ _ _ _ _ _ _ _ _ _) X (sr_beliefs _ s) cg mean prec v Sc Hg Hv) as (_ & G).
  specialize (G Fu (effects fr) (effects_nodup fr) Cov w). unfold within in G.
  assert (Ln : INR (length (effects fr)) = q) by (unfold effects, q; now rewrite map_length, seq_length).
  rewrite Ln in G.
  assert (Ei : iterated S LI (effects fr) (fun w => dsumS S (map (fval S w) (sr_beliefs T s))) w =
    q * (ln (sqrt (2 * PI)) - logSqrtTwoPi) + iterated S LI (effects fr) (joint_density P fr (skipn m pars) (firstn m pars)) w).
  { etransitivity; [apply (iterated_ext S LI (ni_ext _ _ _ X)); intros w';
      apply (run_value inverse determinant isnormal T t_scope t_eval t_deriv t_deriv2 t_integral Det fr m nSL l P s Reg Ne Obs Hm HLind HP Hs pars Hp)|].
    exact (near_shift S (within lo hi) LI X (q * (ln (sqrt (2 * PI)) - logSqrtTwoPi)) _ (effects fr) w). }
  rewrite Ei in G. exact G.
Qed.
