(** C54 for the cluster graph that [build] makes. *)
From Coq Require Import List Reals Lia Lra Arith ZArith Bool Sorted.
From Verif Require Import Model.Base Model.Items Model.Vectors Model.Mixed Model.ClusterGraph Model.MultiNormal Model.NormalSig
  Spec.GLMMSpec Spec.MatrixSpec Spec.GraphSpec Spec.ElimSpec Spec.TreeSpec Spec.JointSpec
  Proofs.ItemsLemmas Proofs.MixedLemmas Proofs.MessageLemmas Proofs.MessageMain Proofs.ElimLemmas Proofs.BuildLemmas Proofs.ClusterMain
  Proofs.SumLemmas Proofs.NormalMain Proofs.PosDef Proofs.JointLemmas Proofs.JointForms Proofs.JointMain.
Import ListNotations.
Local Open Scope R_scope.

(** Another list of the same items. *)
Lemma lsumR_same l l' f : NoDup l -> NoDup l' -> (forall x, In x l <-> In x l') -> lsumR l f = lsumR l' f.
Proof.
  intros N N' H. rewrite <- (lsumR_sub l l' f N N') by (intros x; apply H). apply lsumR_ext. intros x Hx.
  apply H, memb_In in Hx. rewrite Hx. reflexivity.
Qed.
Lemma joint_form_same l l' Q w : NoDup l -> NoDup l' -> (forall x, In x l <-> In x l') -> joint_form l Q w = joint_form l' Q w.
Proof.
  intros N N' H. unfold joint_form. rewrite (lsumR_same l l') by auto. apply lsumR_ext. intros x _. apply lsumR_same; auto.
Qed.
Lemma joint_precision_same sc l l' Q : NoDup l -> NoDup l' -> (forall x, In x l <-> In x l') ->
  joint_precision sc l Q -> joint_precision sc l' Q.
Proof.
  intros N N' H [A B C]. constructor.
  - intros x y Hx Hy. apply A; apply H; auto.
  - intros w (x & Hx & Wx). rewrite <- (joint_form_same l l') by auto. apply B. exists x. split; auto. apply H, Hx.
  - intros x y Hx Hy. apply C; apply H; auto.
Qed.
Lemma joint_variance_same l l' Q Sg : NoDup l -> NoDup l' -> (forall x, In x l <-> In x l') ->
  joint_variance l Q Sg -> joint_variance l' Q Sg.
Proof.
  intros N N' H V x z Hx Hz. rewrite <- (lsumR_same l l') by auto. apply V; apply H; auto.
Qed.

Section Build.
Variables (inverse : rmat -> rmat) (determinant : rmat -> R) (isnormal : R -> bool)
  (B0 : Type) (bsc : B0 -> list Z) (bev : B0 -> list R -> R) (bd : B0 -> list R -> list R)
  (bd2 : B0 -> list R -> list (list R))
  (integral : (list R -> outcome R) -> (list R -> outcome (list R)) ->
              (list R -> outcome (list (list R))) -> nat -> mnormal -> list Z -> outcome B0).
Hypothesis Hinv : forall d A, inverts inverse d A.
Let S := normal_sig inverse determinant isnormal B0 bsc bev bd bd2 integral.
Notation okmS := (okm inverse determinant isnormal B0 bsc bev bd bd2 integral).
Notation okstS := (okst inverse determinant isnormal B0 bsc bev bd bd2 integral).
Variables (mean : list R) (Q : Z -> Z -> R).
Let mu (x : Z) : R := nth (Z.to_nat x) mean 0.

Lemma subset_map C v : getVectorSubset S mean C = Ok v -> v = map mu C.
Proof.
  revert v. induction C as [|x C IH]; intros v E; cbn in E.
  - injection E as <-. reflexivity.
  - apply bind_Ok in E. destruct E as (y & Ey & E). apply bind_Ok in E. destruct E as (ys & Es & E). injection E as <-.
    destruct (Z.ltb_spec x 0); [discriminate|]. unfold vec_get in Ey.
    destruct (nth_error mean (Z.to_nat x)) as [y'|] eqn:N; [|discriminate]. injection Ey as <-.
    cbn [map]. rewrite (IH ys Es). f_equal. unfold mu. symmetry. apply (nth_error_nth mean (Z.to_nat x) 0 N).
Qed.

Lemma given_okm items scopes C (m : mixed S) v : NoDup items -> joint_precision scopes items Q -> NoDup C -> incl C items ->
  m_items m = C -> m_fixed m = false -> getVectorSubset S mean C = Ok v ->
  let m' := setNormalApprox m v (getSparseMatrixSubset S Q C) in
  okmS mu C m' /\ forall w, mfrm _ _ _ _ _ _ _ _ _ m' w = uform items Q (fun x => memb x C) w.
Proof.
  intros Nd J NC HC Im Fm Ev m'. apply subset_map in Ev. subst v.
  unfold m', setNormalApprox. rewrite Fm.
  destruct (given_good scopes items Q mu Nd J inverse determinant Hinv C NC HC) as [G F].
  split.
  - constructor; cbn; auto. 
  - intros w. unfold mfrm, nrm. cbn [m_items m_normal n_given n_normal]. rewrite Im. exact (F w).
Qed.

Lemma C54_good (fs : list B0) (items : list Z) (cg cg' : cgraph S) :
  scopes_ok (S := S) fs -> NoDup items -> (forall x, In x items <-> exists f, In f fs /\ In x (bsc f)) ->
  joint_precision (map bsc fs) items Q ->
  build (S := S) fs = Ok cg -> cg_setNormalApprox cg mean Q = Ok cg' ->
  (exists Sigma, joint_variance items Q Sigma) /\
  forall Sigma, joint_variance items Q Sigma ->
    (forall c, In c (cg_clusters cg') ->
       n_items (m_normal c) = m_items c /\ marginal_normal mu Sigma (m_items c) (n_normal (m_normal c)) /\
       good determinant mu (m_items c) (n_normal (m_normal c))) /\
    (forall e, In e (cg_edges cg') ->
       n_items (m_normal (e_belief e)) = m_items (e_belief e) /\
       marginal_normal mu Sigma (m_items (e_belief e)) (n_normal (m_normal (e_belief e))) /\
       good determinant mu (m_items (e_belief e)) (n_normal (m_normal (e_belief e)))).
Proof.
  intros Hsc Nd0 Hit0 J0 Hb E.
  split; [apply (variance_exists (map bsc fs) items Q Nd0 J0)|]. intros Sigma HS0.
  destruct (build_ok S fs Hsc) as (cg0 & its & es & cls & seps & Hb' & Sh & _).
  rewrite Hb in Hb'. injection Hb' as <-.
  assert (Nd : NoDup its) by (apply sorted_lt_NoDup, Sh).
  assert (Same : forall x, In x items <-> In x its).
  { intros x. rewrite Hit0, (sh_items _ _ _ _ _ _ _ Sh). split.
    - intros (f & Hf & Hx). exists (bsc f). split; auto. exact (in_map bsc fs f Hf).
    - intros (s & Hs & Hx). apply in_map_iff in Hs. destruct Hs as (f & <- & Hf). eauto. }
  assert (J : joint_precision (map bsc fs) its Q) by (apply (joint_precision_same _ items its); auto).
  assert (HS : joint_variance its Q Sigma) by (apply (joint_variance_same items its); auto).
  pose proof (sh_elim _ _ _ _ _ _ _ Sh) as Hel.
  assert (NCl : forall c, In c cls -> NoDup c).
  { apply (elim_NoDup_clusters _ _ _ _ Hel). apply Sh. }
  destruct (elim_lengths Hel) as [L1 L2].
  unfold cg_setNormalApprox in E.
  apply bind_Ok in E. destruct E as (clusters & E1 & E).
  apply bind_Ok in E. destruct E as (edges & E2 & E).
  apply bind_Ok in E. destruct E as (cg1 & E3 & E).
  apply bind_Ok in E. destruct E as (cg2 & E4 & E). injection E as <-.
  (* after the first two loops *)
  pose proof (F2_mapM (fun x y : mixed S => exists v, getVectorSubset S mean (m_items x) = Ok v /\
     y = setNormalApprox x v (getSparseMatrixSubset S Q (m_items x))) _ _ _ E1) as A1.
  specialize (A1 ltac:(intros x y Exy; cbn beta in Exy; apply bind_Ok in Exy; destruct Exy as (v & Ev & Exy); injection Exy as <-; eauto)).
  pose proof (F2_mapM (fun x y : edge S => exists v, getVectorSubset S mean (m_items (e_belief x)) = Ok v /\
     y = mkEdge (e_first x) (e_second x) (setNormalApprox (e_belief x) v (getSparseMatrixSubset S Q (m_items (e_belief x))))) _ _ _ E2) as A2.
  specialize (A2 ltac:(intros x y Exy; cbn beta in Exy; apply bind_Ok in Exy; destruct Exy as (v & Ev & Exy); injection Exy as <-; eauto)).
  set (cgs := mkCG clusters edges (cg_calibrated cg)) in *.
  assert (Lc : length clusters = length cls).
  { rewrite <- (sh_clusters _ _ _ _ _ _ _ Sh), map_length. clear -A1. induction A1; simpl; auto. }
  assert (Le : length edges = length seps).
  { rewrite <- (sh_nedges _ _ _ _ _ _ _ Sh). clear -A2. induction A2; simpl; auto. }
  assert (Cl : forall i C, nth_error cls i = Some C -> exists c, nth_error clusters i = Some c /\
     okmS mu C c /\ forall w, mfrm _ _ _ _ _ _ _ _ _ c w = uform its Q (fun x => memb x C) w).
  { intros i C Hi. pose proof Hi as Hi'. rewrite <- (sh_clusters _ _ _ _ _ _ _ Sh), nth_error_map in Hi'.
    destruct (nth_error (cg_clusters cg) i) as [c0|] eqn:N0; [|discriminate]. injection Hi' as Ic.
    destruct (F2_nth _ _ _ _ _ A1 N0) as (c & Nc & v & Ev & ->). exists (setNormalApprox c0 v (getSparseMatrixSubset S Q (m_items c0))).
    split; auto. rewrite Ic in *.
    apply (given_okm its (map bsc fs)); auto.
    - apply NCl. eapply nth_error_In; eauto.
    - apply (elim_incl _ _ _ _ Hel (scopes_graph_wf _ _)). eapply nth_error_In; eauto.
    - apply (sh_free _ _ _ _ _ _ _ Sh). eapply nth_error_In; eauto. }
  assert (Ed : forall i s, nth_error seps i = Some s -> exists p eb, nth_error edges i = Some (mkEdge (Z.of_nat i) (Z.of_nat p) eb) /\
     first_containing cls i s p /\ okmS mu s eb /\ forall w, mfrm _ _ _ _ _ _ _ _ _ eb w = uform its Q (fun x => memb x s) w).
  { intros i s Hi. destruct (sh_edge _ _ _ _ _ _ _ Sh i s Hi) as (p & N0 & Fc).
    destruct (F2_nth _ _ _ _ _ A2 N0) as (e & Ne & v & Ev & ->). cbn [e_first e_second e_belief mixed_of_items m_items] in *.
    exists p. eexists. split; [exact Ne|]. split; auto.
    destruct (sep_facts _ _ _ _ _ Hel i s Hi) as (x & c & _ & Hc & Hcs & _ & Ns).
    apply (given_okm its (map bsc fs)); auto.
    intros y Hy. apply (elim_incl _ _ _ _ Hel (scopes_graph_wf _ _) c); [eapply nth_error_In; eauto|]. apply Hcs. auto. }
  assert (Ok0 : okstS cls seps mu cgs).
  { constructor; cbn [cgs cg_clusters cg_edges]; auto.
    - intros i C Hi. destruct (Cl i C Hi) as (c & Nc & Oc & _). eauto.
    - intros i s Hi. destruct (Ed i s Hi) as (p & eb & Ne & Fc & Oe & _). eauto. }
  pose proof (fwd_start inverse determinant isnormal B0 bsc bev bd bd2 integral (map bsc fs) its es cls seps Q mu Hel NCl cgs Ok0) as St.
  specialize (St ltac:(intros i C w Hi; unfold cf; destruct (Cl i C Hi) as (c & Nc & _ & Fc); etransitivity; [|apply Fc]; exact (f_equal (fun o => match o with Some c => mfrm _ _ _ _ _ _ _ _ _ c w | None => 0 end) Nc))).
  specialize (St ltac:(intros i s w Hi; unfold ef; destruct (Ed i s Hi) as (p & eb & Ne & _ & _ & Fe); etransitivity; [|apply Fe]; exact (f_equal (fun o => match o with Some e => mfrm _ _ _ _ _ _ _ _ _ (e_belief e) w | None => 0 end) Ne))).
  destruct St as (U & F0).
  unfold calibrateInternal in E3. cbn [cgs cg_edges] in E3. rewrite Le in E3.
  destruct (fwd_all inverse determinant isnormal B0 bsc bev bd bd2 integral Hinv (map bsc fs) its es cls seps Q mu Hel NCl J
              (length seps) 0 _ cg1 U eq_refl F0 E3) as (U1 & F1).
  pose proof (fwd_bwd inverse determinant isnormal B0 bsc bev bd bd2 integral (map bsc fs) its es cls seps Q mu Hel cg1 U1 F1) as B1.
  unfold calibrateInternal in E4.
  assert (Ln : length (cg_edges cg1) = length seps) by exact (os_ne _ _ _ _ _ _ _ _ _ _ _ _ _ (f_ok _ _ _ _ _ _ _ _ _ _ _ _ _ _ _ _ _ _ F1)).
  rewrite Ln in E4.
  pose proof (bwd_all inverse determinant isnormal B0 bsc bev bd bd2 integral Hinv (map bsc fs) its es cls seps Q mu Hel NCl J
              (length seps) cg1 cg2 U1 (le_n _) B1 E4) as B2.
  pose proof (b_ok _ _ _ _ _ _ _ _ _ _ _ _ _ _ _ _ _ B2) as Ok2.
  assert (Fin : forall C m, okmS mu C m -> NoDup C -> incl C its ->
     is_min (uform its Q (fun _ => true)) C (mfrm _ _ _ _ _ _ _ _ _ m) ->
     n_items (m_normal m) = m_items m /\ marginal_normal mu Sigma (m_items m) (n_normal (m_normal m)) /\
     good determinant mu (m_items m) (n_normal (m_normal m))).
  { intros C m O NC HC Hm. rewrite (om_items _ _ _ _ _ _ _ _ _ _ _ _ O). split; [apply O|]. split; [|apply O].
    apply (minimum_marginal (map bsc fs) its Q mu Nd J inverse determinant Hinv); auto; [apply O|].
    eapply is_min_ext; [reflexivity| |exact Hm]. intros w. unfold mfrm.
    rewrite (om_items _ _ _ _ _ _ _ _ _ _ _ _ O). reflexivity. }
  split.
  - intros c Hc. apply in_map_iff in Hc. destruct Hc as (c0 & <- & Hc0). cbn [fixNormalApprox m_normal m_items].
    apply In_nth_error in Hc0. destruct Hc0 as (i & Ni).
    assert (Hi : exists C, nth_error cls i = Some C).
    { destruct (nth_error cls i) eqn:X; eauto. apply nth_error_None in X.
      assert (i < length (cg_clusters cg2))%nat by (apply nth_error_Some; congruence).
      assert (length (cg_clusters cg2) = length cls) by exact (os_len _ _ _ _ _ _ _ _ _ _ _ _ _ Ok2). lia. }
    destruct Hi as (C & HC). destruct (os_cl _ _ _ _ _ _ _ _ _ _ _ _ _ Ok2 i C HC) as (c1 & N1 & O1).
    assert (X : Some c1 = Some c0) by exact (eq_trans (eq_sym N1) Ni). injection X as X. subst c1.
    apply (Fin C c0 O1); [apply NCl; eapply nth_error_In; eauto|
      apply (elim_incl _ _ _ _ Hel (scopes_graph_wf _ _)); eapply nth_error_In; eauto|].
    pose proof (b_cl _ _ _ _ _ _ _ _ _ _ _ _ _ _ _ _ _ B2 i C (Nat.le_0_l i) HC) as M.
    eapply is_min_ext; [reflexivity| |exact M]. intros w. exact (f_equal (fun o => match o with Some c => mfrm _ _ _ _ _ _ _ _ _ c w | None => 0 end) Ni).
  - intros e He. apply in_map_iff in He. destruct He as (e0 & <- & He0). cbn [e_belief fixNormalApprox m_normal m_items].
    apply In_nth_error in He0. destruct He0 as (i & Ni).
    assert (Hi : exists s, nth_error seps i = Some s).
    { destruct (nth_error seps i) eqn:X; eauto. apply nth_error_None in X.
      assert (i < length (cg_edges cg2))%nat by (apply nth_error_Some; congruence).
      assert (length (cg_edges cg2) = length seps) by exact (os_ne _ _ _ _ _ _ _ _ _ _ _ _ _ Ok2). lia. }
    destruct Hi as (s & Hs). destruct (os_ed _ _ _ _ _ _ _ _ _ _ _ _ _ Ok2 i s Hs) as (p & eb & N1 & _ & O1).
    assert (X : Some (mkEdge (Z.of_nat i) (Z.of_nat p) eb) = Some e0) by exact (eq_trans (eq_sym N1) Ni). injection X as E0. symmetry in E0. subst e0. cbn [e_belief].
    destruct (sep_facts _ _ _ _ _ Hel i s Hs) as (x & c & _ & Hc & Hcs & _ & Ns).
    apply (Fin s eb O1); auto.
    { intros y Hy. apply (elim_incl _ _ _ _ Hel (scopes_graph_wf _ _) c); [eapply nth_error_In; eauto|]. apply Hcs. auto. }
    pose proof (b_ed _ _ _ _ _ _ _ _ _ _ _ _ _ _ _ _ _ B2 i s (Nat.le_0_l i) Hs) as M.
    eapply is_min_ext; [reflexivity| |exact M]. intros w. exact (f_equal (fun o => match o with Some e => mfrm _ _ _ _ _ _ _ _ _ (e_belief e) w | None => 0 end) Ni).
Qed.

Theorem C54_main (fs : list B0) (items : list Z) (cg cg' : cgraph S) :
  scopes_ok (S := S) fs -> NoDup items -> (forall x, In x items <-> exists f, In f fs /\ In x (bsc f)) ->
  joint_precision (map bsc fs) items Q ->
  build (S := S) fs = Ok cg -> cg_setNormalApprox cg mean Q = Ok cg' ->
  (exists Sigma, joint_variance items Q Sigma) /\
  forall Sigma, joint_variance items Q Sigma ->
    (forall c, In c (cg_clusters cg') ->
       n_items (m_normal c) = m_items c /\ marginal_normal mu Sigma (m_items c) (n_normal (m_normal c))) /\
    (forall e, In e (cg_edges cg') ->
       n_items (m_normal (e_belief e)) = m_items (e_belief e) /\
       marginal_normal mu Sigma (m_items (e_belief e)) (n_normal (m_normal (e_belief e)))).
Proof.
  intros A1 A2 A3 A4 A5 A6. destruct (C54_good fs items cg cg' A1 A2 A3 A4 A5 A6) as [X Y]. split; auto.
  intros Sigma HS. destruct (Y Sigma HS) as [Yc Ye]. split.
  - intros c Hc. destruct (Yc c Hc) as (? & ? & _). auto.
  - intros e He. destruct (Ye e He) as (? & ? & _). auto.
Qed.
End Build.
