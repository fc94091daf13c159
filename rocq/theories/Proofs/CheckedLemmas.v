(** C24: no lookup of a missing item. *)
From Coq Require Import List ZArith Bool Lia Arith Sorted Permutation FunctionalExtensionality.
From Verif Require Import Model.Base Model.Items Model.Graph Model.Mixed Model.ClusterGraph
  Spec.GraphSpec Spec.ElimSpec Spec.BeliefSpec Spec.TreeSpec Spec.IntegralSpec Spec.MessageSpec Spec.Checked
  Proofs.ListLemmas Proofs.ItemsLemmas Proofs.ElimLemmas Proofs.MixedLemmas Proofs.BuildLemmas
  Proofs.ClusterMain Proofs.GroupTac Proofs.MessageLemmas Proofs.MessageMain.
Import ListNotations.

Section Chk.
Variable S : sig.
Notation mixed := (mixed S).

Lemma look_ok s items : incl s items -> look s items = Ok tt.
Proof.
  intros H. unfold look. destruct (forallb _ s) eqn:E; auto.
  assert (E' : forallb (fun i => existsb (Z.eqb i) items) s = true).
  { apply forallb_forall. intros x Hx. apply existsb_exists. exists x. split; auto. apply Z.eqb_refl. }
  congruence.
Qed.
Lemma look_all_ok (bs : list (B S)) items : (forall b, In b bs -> incl (bscope S b) items) ->
  look_all bs items = Ok tt.
Proof.
  unfold look_all. induction bs as [|b bs IH]; intros H; simpl; auto.
  rewrite look_ok by (apply H; now left). cbn [bind]. apply IH. intros; apply H; now right.
Qed.

Lemma c_of_belief_eq (b : B S) : c_of_belief b = Ok (mixed_of_belief b).
Proof. unfold c_of_belief. now rewrite look_ok by apply incl_refl. Qed.

Lemma c_mul_eq (m o : mixed) : mwf m -> mwf o -> incl (m_items o) (m_items m) -> c_mul m o = Ok (mixed_mul m o).
Proof.
  intros Hm Ho Hi. unfold c_mul. rewrite (mwf_normal _ _ Hm), (mwf_normal _ _ Ho), look_ok by auto.
  assert (E : (if m_fixed m then Ok tt else Ok tt) = Ok tt) by now destruct (m_fixed m). rewrite E. cbn [bind].
  rewrite look_all_ok; auto. intros b Hb. apply in_app_or in Hb. destruct Hb as [Hb|Hb].
  - now apply Hm.
  - eapply incl_tran; [now apply Ho|auto].
Qed.
Lemma c_div_eq (m o : mixed) : mwf m -> mwf o -> incl (m_items o) (m_items m) -> c_div m o = Ok (mixed_div m o).
Proof.
  intros Hm Ho Hi. unfold c_div. rewrite (mwf_normal _ _ Hm), (mwf_normal _ _ Ho), look_ok by auto.
  assert (E : (if m_fixed m then Ok tt else Ok tt) = Ok tt) by now destruct (m_fixed m). rewrite E. cbn [bind].
  rewrite look_all_ok; auto. intros b Hb. apply in_app_or in Hb. destruct Hb as [Hb|Hb].
  - now apply Hm.
  - eapply incl_tran; [now apply Ho|auto].
Qed.

Lemma bind_ext {A C} (m : outcome A) (f g : A -> outcome C) :
  (forall a, m = Ok a -> f a = g a) -> bind m f = bind m g.
Proof. destruct m; simpl; auto. Qed.

Hypothesis HL : scope_law S.

Lemma c_integrate_eq (m : mixed) i : mwf m -> In i (m_items m) -> c_integrate m i = integrate m i.
Proof.
  intros Hm Hi. unfold c_integrate, integrate. rewrite look_ok by (intros x [<-|[]]; auto). cbn [bind].
  assert (E1 : c_deriv m = evaluateDerivative m).
  { apply functional_extensionality. intros x. unfold c_deriv. rewrite look_all_ok; auto. apply Hm. }
  assert (E2 : c_deriv2 m = evaluateSecondDerivative m).
  { apply functional_extensionality. intros x. unfold c_deriv2. rewrite look_all_ok; auto. apply Hm. }
  rewrite E1, E2. apply bind_ext. intros b Eb. rewrite c_of_belief_eq. cbn [bind].
  unfold c_nmargin. rewrite look_ok; auto. rewrite (mwf_normal _ _ Hm), erase_pos by (auto; apply Hm).
  intros x Hx. apply filter_In in Hx. tauto.
Qed.

Lemma c_fold_eq : forall is (m : mixed), mwf m -> NoDup is -> incl is (m_items m) ->
  foldM c_integrate is m = foldM integrate is m.
Proof.
  induction is as [|i is IH]; intros m Hm Hnd Hi; auto. simpl.
  assert (Him : In i (m_items m)) by (apply Hi; now left).
  rewrite c_integrate_eq by auto. apply bind_ext. intros m1 E1. inversion Hnd as [|? ? Hni Hnd']; subst.
  destruct (integrate_wf S m m1 i HL Hm Him E1) as (W1 & I1 & F1). apply IH; auto.
  intros x Hx. rewrite I1. apply filter_In. split; [apply Hi; now right|].
  destruct (Z.eqb_spec x i); auto. subst; tauto.
Qed.

Lemma c_margin_eq (m : mixed) items n : mwf m -> (n = true -> incl items (m_items m)) ->
  c_margin m items n = margin m items n.
Proof.
  intros Hm Hi. unfold c_margin, margin. destruct n.
  - unfold c_nmargin. rewrite look_ok; auto. rewrite (mwf_normal _ _ Hm). auto.
  - apply c_fold_eq; auto.
    + apply findItemsDifference_NoDup, Hm.
    + intros x Hx. apply findItemsDifference_In in Hx. tauto.
Qed.

Lemma c_pass_eq (cg : cgraph S) k f n : cgwf S cg -> c_passMessage cg k f n = passMessage cg k f n.
Proof.
  intros W. unfold c_passMessage, passMessage. apply bind_ext. intros e Ee.
  unfold vec_get in Ee. destruct (nth_error (cg_edges cg) k) as [e'|] eqn:En; [|discriminate].
  injection Ee as ->.
  destruct (cw_edges S cg W e (nth_error_In _ _ En)) as (We & i & j & ci & cj & Hf & Hs & Hi & Hj & Ii & Ij).
  assert (Hx : forall z (c : mixed), z = e_first e \/ z = e_second e -> zat (cg_clusters cg) z = Ok c ->
     mwf c /\ incl (m_items (e_belief e)) (m_items c)).
  { intros z c [->| ->] Ez.
    - rewrite Hf, (zat_Ok _ _ _ Hi) in Ez. injection Ez as <-. split; auto. apply W. eapply nth_error_In; eauto.
    - rewrite Hs, (zat_Ok _ _ _ Hj) in Ez. injection Ez as <-. split; auto. apply W. eapply nth_error_In; eauto. }
  cbv zeta. unfold projectClusterOntoEdge.
  destruct (zat (cg_clusters cg) (if f then e_first e else e_second e)) as [csi| | |] eqn:Ei; cbn [bind]; auto.
  assert (Hd1 : (if f then e_first e else e_second e) = e_first e \/ (if f then e_first e else e_second e) = e_second e)
    by (destruct f; auto).
  destruct (Hx _ csi Hd1 Ei) as [Wi Iei].
  rewrite c_margin_eq by auto.
  destruct (margin csi (m_items (e_belief e)) n) as [b| | |] eqn:Em; cbn [bind e_belief]; auto.
  destruct (margin_wf S csi b _ n HL Wi (mwf_nd _ _ We) Iei Em) as [Wb Ib].
  destruct (zat (cg_clusters cg) (if f then e_second e else e_first e)) as [csj| | |] eqn:Ej; cbn [bind]; auto.
  assert (Hd2 : (if f then e_second e else e_first e) = e_first e \/ (if f then e_second e else e_first e) = e_second e)
    by (destruct f; auto).
  destruct (Hx _ csj Hd2 Ej) as [Wj Iej].
  assert (Hbj : incl (m_items b) (m_items csj)) by (intros x Hb; apply Iej, Ib, Hb).
  rewrite c_mul_eq by auto. cbn [bind].
  rewrite c_div_eq; auto.
  - apply mwf_mul; auto.
  - rewrite mul_items by auto. auto.
Qed.

Hypothesis L : group_laws S.

Lemma c_passes_eq f n : forall ids (cg : cgraph S), cgwf S cg ->
  foldM (fun c k => c_passMessage c k f n) ids cg = foldM (fun c k => passMessage c k f n) ids cg.
Proof.
  induction ids as [|k ids IH]; intros cg W; simpl; auto.
  rewrite c_pass_eq by auto. apply bind_ext. intros cg' E. apply IH.
  eapply pass_grand; eauto.
Qed.
Lemma c_cal_eq (cg : cgraph S) f n : cgwf S cg -> c_calibrateInternal cg f n = calibrateInternal cg f n.
Proof. intros W. unfold c_calibrateInternal, calibrateInternal. now apply c_passes_eq. Qed.

Lemma cal_wf (cg cg' : cgraph S) f n : cgwf S cg -> calibrateInternal cg f n = Ok cg' -> cgwf S cg'.
Proof.
  intros W E. destruct (inv_cal S L (fun _ => dzero S) (grand S cg (fun _ => dzero S)) cg f n cg' HL) as [H _]; auto.
  split; auto.
Qed.

Lemma c_calibrate_eq (cg : cgraph S) : cgwf S cg -> c_calibrate cg = calibrate cg.
Proof.
  intros W. unfold c_calibrate, calibrate, calibrateForward, calibrateBackward.
  rewrite c_cal_eq by auto. apply bind_ext. intros cg1 E1.
  rewrite c_cal_eq; auto. eapply cal_wf; eauto.
Qed.

Lemma c_set_eq (cg : cgraph S) mean prec : cgwf S cg ->
  c_setNormalApprox cg mean prec = cg_setNormalApprox cg mean prec.
Proof.
  intros W. unfold c_setNormalApprox, cg_setNormalApprox.
  apply bind_ext. intros clusters E1. apply bind_ext. intros edges E2.
  pose proof (same_cgwf S _ _ (set_same S cg mean prec clusters edges E1 E2) W) as W0.
  rewrite c_cal_eq by auto. apply bind_ext. intros cg1 E3.
  rewrite c_cal_eq; auto. eapply cal_wf; eauto.
Qed.

Lemma c_cgmargin_eq (cg : cgraph S) items : cgwf S cg -> c_cgmargin cg items = cg_margin cg items.
Proof.
  intros W. unfold c_cgmargin, cg_margin.
  assert (E : (if cg_calibrated cg then Ok cg else c_calibrate cg) =
              (if cg_calibrated cg then Ok cg else calibrate cg)).
  { destruct (cg_calibrated cg); auto. now apply c_calibrate_eq. }
  rewrite E. apply bind_ext. intros cg' E'.
  assert (W' : cgwf S cg').
  { destruct (cg_calibrated cg); [injection E' as <-; auto|].
    destruct (inv_calibrate S L (fun _ => dzero S) (grand S cg (fun _ => dzero S)) cg cg' HL) as [H _]; auto.
    split; auto. }
  f_equal. pose proof (cw_clusters S cg' W') as Hc. clear -HL Hc.
  generalize (mixed_of_items (S := S) items), 0%nat, (length (cg_clusters cg')).
  induction (cg_clusters cg') as [|c cs IH]; intros d k n; simpl; auto.
  destruct (isSubset items (m_items c)).
  - apply (c_margin_eq c items false); [apply Hc; now left|discriminate].
  - destruct n as [|n]; [apply IH; intros; apply Hc; now right|].
    destruct (k =? n)%nat; auto. apply IH. intros; apply Hc; now right.
Qed.

Lemma c_op_eq (cg : cgraph S) o : cgwf S cg -> c_run_op cg o = run_op cg o.
Proof.
  intros W. destruct o; simpl.
  - now apply c_pass_eq.
  - now apply c_set_eq.
  - now apply c_cal_eq.
  - now apply c_cal_eq.
  - now apply c_calibrate_eq.
  - now rewrite c_cgmargin_eq.
Qed.

Lemma c_ops_eq ops : forall (cg : cgraph S), cgwf S cg -> c_run_ops cg ops = run_ops cg ops.
Proof.
  unfold c_run_ops, run_ops. induction ops as [|o ops IH]; intros cg W; simpl; auto.
  rewrite c_op_eq by auto. apply bind_ext. intros cg' E. apply IH.
  destruct (inv_op S L (fun _ => dzero S) (grand S cg (fun _ => dzero S)) cg o cg' HL) as [H _]; auto.
  split; auto.
Qed.

Lemma c_extract_eq (cg : cgraph S) : cgwf S cg -> c_extractBeliefs cg = extractBeliefs cg.
Proof.
  intros W. unfold c_extractBeliefs, extractBeliefs.
  assert (H1 := cw_clusters S cg W).
  assert (H2 : forall e, In e (cg_edges cg) -> mwf (e_belief e) /\ exists j cj, e_second e = Z.of_nat j /\
       nth_error (cg_clusters cg) j = Some cj /\ incl (m_items (e_belief e)) (m_items cj)).
  { intros e He. destruct (cw_edges S cg W e He) as (We & i & j & ci & cj & F0 & S0 & Ni & Nj & Ii & Ij).
    eauto 8. }
  clear W. revert H1 H2. generalize (cg_clusters cg). induction (cg_edges cg) as [|e es IH]; intros bs Hb He; simpl; auto.
  destruct (He e (or_introl eq_refl)) as (We & j & cj & Hj & Nj & Ij).
  rewrite Hj, (zat_Ok _ _ _ Nj), Nat2Z.id. cbn [bind].
  assert (Wj : mwf cj) by (apply Hb; eapply nth_error_In; eauto).
  rewrite c_div_eq by auto. cbn [bind]. apply IH.
  - intros m Hm. apply upd_In in Hm. destruct Hm as [->|Hm]; auto. now apply mwf_div.
  - intros e' He'. destruct (He e' (or_intror He')) as (We' & j' & cj' & Hj' & Nj' & Ij').
    split; auto. destruct (Nat.eq_dec j j') as [<-|Hne].
    + exists j, (mixed_div cj (e_belief e)). split; auto. split.
      * apply nth_error_upd_eq. apply nth_error_Some. congruence.
      * rewrite div_items by auto. assert (cj' = cj) by congruence. now subst.
    + exists j', cj'. split; auto. split; auto. now rewrite nth_error_upd_neq.
Qed.

Lemma c_compute_eq (cg : cgraph S) mean prec : cgwf S cg ->
  c_compute cg mean prec = computeLogNormalizingConstant cg mean prec.
Proof.
  intros W. unfold c_compute, computeLogNormalizingConstant, calibrateForward, cg_logNormalizingConstant.
  rewrite c_set_eq by auto. apply bind_ext. intros cg1 E1.
  assert (W1 : cgwf S cg1).
  { destruct (inv_setnormal S L (fun _ => dzero S) (grand S cg (fun _ => dzero S)) cg mean prec cg1 HL) as [H _]; auto.
    split; auto. }
  rewrite c_cal_eq by auto. apply bind_ext. intros cg2 E2. pose proof (cal_wf _ _ _ _ W1 E2) as W2.
  apply bind_ext. intros c Ec. unfold c_lognorm, mixed_logNormalizingConstant.
  rewrite c_margin_eq; auto; [|discriminate].
  apply W2. unfold zat in Ec. destruct (_ <? 0)%Z; [discriminate|]. unfold vec_at in Ec.
  destruct (nth_error (cg_clusters cg2) _) eqn:En; [|discriminate]. injection Ec as <-.
  eapply nth_error_In; eauto.
Qed.
End Chk.

Section Bld.
Variable S : sig.
Lemma c_mulfold_eq : forall bs (c : mixed S), mwf c -> (forall b, In b bs -> mwf b /\ incl (m_items b) (m_items c)) ->
  foldM c_mul bs c = Ok (fold_left mixed_mul bs c).
Proof.
  induction bs as [|b bs IH]; intros c Hc Hb; simpl; auto.
  destruct (Hb b (or_introl eq_refl)) as [Wb Ib]. rewrite c_mul_eq by auto. cbn [bind].
  apply IH; [now apply mwf_mul|]. intros b' Hb'. rewrite mul_items by auto. apply Hb. now right.
Qed.

Lemma c_populate_eq : forall (cls bs : list (mixed S)), (forall c, In c cls -> mwf c) -> (forall b, In b bs -> mwf b) ->
  c_populateClusters cls bs = Ok (fst (populateClusters cls true bs)).
Proof.
  induction cls as [|c cls IH]; intros bs Hc Hb; simpl; auto.
  assert (Wc : mwf c) by (apply Hc; now left).
  rewrite c_mulfold_eq; auto.
  - cbn [bind]. rewrite IH.
    + cbn [bind]. destruct (populateClusters cls true _). reflexivity.
    + intros; apply Hc; now right.
    + intros b H. apply filter_In in H. now apply Hb.
  - intros b H. apply filter_In in H. destruct H as [H1 H2]. split; auto. unfold contained in H2.
    apply isSubset_incl in H2; auto; [now apply Hb|apply Wc].
Qed.

Lemma c_build_eq (fs : list (B S)) : scopes_ok fs -> c_build fs = build fs.
Proof.
  intros Hok. unfold c_build, build.
  assert (E : mapM c_of_belief fs = Ok (map mixed_of_belief fs)).
  { induction fs as [|f fs IH]; simpl; auto. rewrite c_of_belief_eq. cbn [bind].
    rewrite IH by (intros f' Hf'; apply Hok; now right). reflexivity. }
  rewrite E. cbn [bind]. unfold c_make, makeClusterGraph.
  assert (Hb : forall b : mixed S, In b (map mixed_of_belief fs) -> mwf b).
  { intros b Hb. apply in_map_iff in Hb. destruct Hb as (f & <- & Hf). apply mwf_of_belief. auto. }
  destruct (initialize_shape S (map m_items (map mixed_of_belief fs)))
    as (g & cg & items & es & cls & seps & Eg & Ei & Hsh & Hcl).
  { intros s Hs. apply in_map_iff in Hs. destruct Hs as (b & <- & H). now apply Hb. }
  rewrite Eg. cbn [bind]. rewrite Ei. cbn [bind].
  rewrite c_populate_eq; auto. apply Hsh.
Qed.
End Bld.

Lemma C24_never : forall S, group_laws S ->
  (forall f d d2 k n items b, b_integral S f d d2 k n items = Ok b -> bscope S b = items) ->
  forall fs : list (B S), (forall f, In f fs -> NoDup (bscope S f)) ->
  c_build fs = build fs /\
  forall cg ops cg', build fs = Ok cg -> run_ops cg ops = Ok cg' ->
    c_run_ops cg ops = Ok cg' /\
    (forall o, c_run_op cg' o = run_op cg' o) /\
    (forall items, c_cgmargin cg' items = cg_margin cg' items) /\
    (forall mean prec, c_compute cg' mean prec = computeLogNormalizingConstant cg' mean prec) /\
    c_extractBeliefs cg' = extractBeliefs cg'.
Proof.
  intros S L HL fs Hok. split; [now apply c_build_eq|]. intros cg ops cg' E1 E2.
  assert (W : cgwf S cg) by (destruct (build_inv S L fs cg (fun _ => dzero S) Hok E1); auto).
  assert (W' : cgwf S cg').
  { destruct (inv_ops S L (fun _ => dzero S) (grand S cg (fun _ => dzero S)) ops cg cg' HL) as [H _]; auto.
    split; auto. }
  split; [rewrite (c_ops_eq S HL L); auto|].
  split; [intros; now apply c_op_eq|].
  split; [intros; now apply c_cgmargin_eq|].
  split; [intros; now apply c_compute_eq|]. now apply c_extract_eq.
Qed.

Lemma C24_lookup : forall item items,
  (forall k, nth_error items k = Some item -> (forall j, (j < k)%nat -> nth_error items j <> Some item) ->
     findRelativeItem item items = k) /\
  (~ In item items -> findRelativeItem item items = O).
Proof.
  intros item items. unfold findRelativeItem. split.
  - intros k Hk Hj. destruct (find_pos item items) as [k'|] eqn:E.
    + pose proof E as E'. apply find_pos_Some in E'.
      destruct (Nat.lt_trichotomy k k') as [H|[H|H]]; auto.
      * exfalso. clear Hj E'. revert k k' E Hk H. induction items as [|y l IH]; intros k k' E Hk H; [discriminate|].
        simpl in E. destruct (Z.eqb_spec y item); [injection E as <-; lia|].
        destruct (find_pos item l) as [q|] eqn:Eq; [|discriminate]. injection E as <-.
        destruct k as [|k]; simpl in Hk; [congruence|]. eapply (IH k q); eauto. lia.
      * exfalso. eapply Hj; eauto.
    + apply find_pos_None in E. exfalso. apply E. eapply nth_error_In; eauto.
  - intros H. apply find_pos_None in H. now rewrite H.
Qed.
