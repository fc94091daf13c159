(** Final forms of C53. *)
From Coq Require Import List ZArith Bool Lia Arith Sorted Permutation.
From Verif Require Import Model.Base Model.Items Model.Mixed Model.ClusterGraph
  Spec.GraphSpec Spec.ElimSpec Spec.BeliefSpec Spec.TreeSpec Spec.IntegralSpec Spec.MessageSpec
  Spec.CalibSpec
  Proofs.ListLemmas Proofs.ItemsLemmas Proofs.ElimLemmas Proofs.MixedLemmas Proofs.BuildLemmas
  Proofs.ClusterMain Proofs.GroupTac Proofs.MessageLemmas Proofs.MessageMain Proofs.ForwardLemmas
  Proofs.CalibLemmas.
Import ListNotations.

Section Main.
Variable S : sig.
Variable LI : (D S -> D S) -> D S.
Hypothesis L : group_laws S.
Hypothesis X : exact_integral S LI.
Hypothesis Fu : fubini S LI.
Variable fs : list (B S).
Hypothesis Hok : scopes_ok fs.
Notation mixed := (mixed S).

Definition F (w : Z -> D S) : D S := dsumS S (map (fval S w) fs).

Section Run.
Variables (items es : list Z) (cls seps : list (list Z)).
Hypothesis Hel : elim (scopes_graph (map (bscope S) fs) items) es cls seps.
Hypothesis Hnd : NoDup items.
Hypothesis Hitems : forall x, In x items <-> exists f, In f fs /\ In x (bscope S f).
Let HF : ext S F := total_ext S fs.
Notation st := (st S cls seps).
Notation marg := (marg S LI items F).
Notation calibd := (calibd S LI items F).

(** What holds at every moment. *)
Definition inv (cg : cgraph S) : Prop := st cg /\ cgwf S cg /\ forall w, grand S cg w = F w.

Lemma inv_pass53 cg k f n cg' : inv cg -> passMessage cg k f n = Ok cg' ->
  inv cg' /\ cg_calibrated cg' = cg_calibrated cg.
Proof.
  intros (H & W & G) E.
  destruct (pass_st S LI L X _ _ _ _ _ Hel cg cg' k f n H E) as (H' & s & p & eb & ci & cj & b & cj' & _ & P).
  destruct (pass_grand S L cg cg' k f n (X_scope S LI X) W E) as (W' & G' & _).
  split; [|exact (p_cal _ _ _ _ _ _ _ _ _ _ _ _ _ _ _ P)]. split; auto. split; auto.
  intros w. now rewrite G'.
Qed.

Lemma inv_passes f n ids : forall cg cg', inv cg ->
  foldM (fun c k => passMessage c k f n) ids cg = Ok cg' -> inv cg' /\ cg_calibrated cg' = cg_calibrated cg.
Proof.
  induction ids as [|k ids IH]; intros cg cg' H E; simpl in E.
  - injection E as <-. auto.
  - apply bind_Ok in E. destruct E as (cg1 & E1 & E). destruct (inv_pass53 _ _ _ _ _ H E1) as [H1 C1].
    destruct (IH cg1 cg' H1 E) as [H2 C2]. split; auto. congruence.
Qed.
Lemma inv_cal53 cg f n cg' : inv cg -> calibrateInternal cg f n = Ok cg' ->
  inv cg' /\ cg_calibrated cg' = cg_calibrated cg.
Proof. intros H E. eapply inv_passes; eauto. Qed.

Lemma inv_same53 cg cg' : inv cg -> same_cg S cg cg' -> inv cg'.
Proof.
  intros (H & W & G) E. split; [eapply same_st; eauto|]. split; [eapply same_cgwf; eauto|].
  intros w. rewrite (same_grand S L cg cg' w E). apply G.
Qed.

Lemma inv_setnormal53 cg mean prec cg' : inv cg -> cg_setNormalApprox cg mean prec = Ok cg' ->
  inv cg' /\ cg_calibrated cg' = cg_calibrated cg.
Proof.
  intros H E. unfold cg_setNormalApprox in E.
  apply bind_Ok in E. destruct E as (clusters & E1 & E).
  apply bind_Ok in E. destruct E as (edges & E2 & E).
  apply bind_Ok in E. destruct E as (cg1 & E3 & E).
  apply bind_Ok in E. destruct E as (cg2 & E4 & E). injection E as <-.
  pose proof (inv_same53 _ _ H (set_same S cg mean prec clusters edges E1 E2)) as H0.
  destruct (inv_cal53 _ _ _ _ H0 E3) as [H1 C1]. destruct (inv_cal53 _ _ _ _ H1 E4) as [H2 C2].
  split; [|simpl in *; congruence]. eapply inv_same53; [exact H2|apply fix_same].
Qed.

Lemma inv_calibrate53 cg cg' : inv cg -> calibrate cg = Ok cg' ->
  inv cg' /\ calibd cg' /\ cg_calibrated cg' = true.
Proof.
  intros H E. destruct H as (H & W & G).
  destruct (calibrate_st S LI L X Fu _ _ _ _ _ Hel Hnd F HF cg cg' H G E) as (H' & C & T).
  split; auto. split; auto.
  assert (Q : forall w, cgwf S cg' /\ grand S cg' w = F w).
  { intros w. apply (inv_calibrate S L w (F w) cg cg' (X_scope S LI X)); auto. split; auto. }
  split; [apply (Q (fun _ => dzero S))|]. intros w. apply Q.
Qed.

Lemma margin_calibd cg cg' its m : inv cg -> (cg_calibrated cg = true -> calibd cg) ->
  cg_margin cg its = Ok (m, cg') -> inv cg' /\ calibd cg' /\ cg_calibrated cg' = true /\
  margin_loop (cg_clusters cg') its (mixed_of_items its) 0 (length (cg_clusters cg')) = Ok m.
Proof.
  intros H HC E. unfold cg_margin in E. apply bind_Ok in E. destruct E as (c & E1 & E).
  apply bind_Ok in E. destruct E as (m' & E2 & E). injection E as -> ->.
  destruct (cg_calibrated cg) eqn:C.
  - injection E1 as <-. auto.
  - destruct (inv_calibrate53 _ _ H E1) as (H1 & C1 & T1). auto.
Qed.

Lemma passes_calibd f ids : forall cg cg', inv cg -> calibd cg ->
  foldM (fun c k => passMessage c k f false) ids cg = Ok cg' -> calibd cg'.
Proof.
  induction ids as [|k ids IH]; intros cg cg' H C E; simpl in E.
  - injection E as <-. auto.
  - apply bind_Ok in E. destruct E as (cg1 & E1 & E). destruct (inv_pass53 _ _ _ _ _ H E1) as [H1 _].
    apply (IH cg1 cg'); auto. eapply (pass_calibd S LI L X Fu); eauto. apply H.
Qed.

(** All operations. *)
Lemma inv_op53 cg o cg' : inv cg -> run_op cg o = Ok cg' -> inv cg'.
Proof.
  intros H E. destruct o; simpl in E.
  - eapply inv_pass53; eauto.
  - eapply inv_setnormal53; eauto.
  - eapply inv_cal53; eauto.
  - eapply inv_cal53; eauto.
  - eapply inv_calibrate53; eauto.
  - apply bind_Ok in E. destruct E as ([m c] & E1 & E). injection E as <-. simpl.
    unfold cg_margin in E1. apply bind_Ok in E1. destruct E1 as (c' & E2 & E1).
    apply bind_Ok in E1. destruct E1 as (m' & _ & E1). injection E1 as <- <-.
    destruct (cg_calibrated cg); [injection E2 as <-; auto|]. eapply inv_calibrate53; eauto.
Qed.
Lemma inv_ops53 ops cg cg' : inv cg -> run_ops cg ops = Ok cg' -> inv cg'.
Proof.
  intros H E. unfold run_ops in E. eapply (foldM_inv inv); [|exact H|exact E].
  intros; eapply inv_op53; eauto.
Qed.

Lemma honest_ops : forall ops cal cg cg', inv cg ->
  (cg_calibrated cg = true -> cal = true /\ calibd cg) -> no_reset cal ops = true ->
  run_ops cg ops = Ok cg' -> cg_calibrated cg' = true -> calibd cg'.
Proof.
  induction ops as [|o ops IH]; intros cal cg cg' H C N E T.
  - injection E as <-. now apply C.
  - unfold run_ops in E. simpl in E. apply bind_Ok in E. destruct E as (cg1 & E1 & E).
    pose proof (inv_op53 cg o cg1 H E1) as H1.
    destruct o as [k f n|mean prec| | | |its]; simpl in E1, N.
    + destruct (inv_pass53 _ _ _ _ _ H E1) as [_ C1]. destruct n.
      * apply andb_true_iff in N. destruct N as [N1 N]. apply (IH cal cg1 cg'); auto.
        intros T1. rewrite C1 in T1. destruct (C T1) as [-> _]. discriminate.
      * apply (IH cal cg1 cg'); auto. intros T1. rewrite C1 in T1. destruct (C T1) as [A B]. split; auto.
        eapply (pass_calibd S LI L X Fu); eauto. apply H.
    + destruct (inv_setnormal53 _ _ _ _ H E1) as [_ C1].
      apply andb_true_iff in N. destruct N as [N1 N]. apply (IH cal cg1 cg'); auto.
      intros T1. rewrite C1 in T1. destruct (C T1) as [-> _]. discriminate.
    + destruct (inv_cal53 _ _ _ _ H E1) as [_ C1]. apply (IH cal cg1 cg'); auto.
      intros T1. rewrite C1 in T1. destruct (C T1) as [A B]. split; auto.
      eapply passes_calibd; [exact H|exact B|exact E1].
    + destruct (inv_cal53 _ _ _ _ H E1) as [_ C1]. apply (IH cal cg1 cg'); auto.
      intros T1. rewrite C1 in T1. destruct (C T1) as [A B]. split; auto.
      eapply passes_calibd; [exact H|exact B|exact E1].
    + destruct (inv_calibrate53 _ _ H E1) as (_ & C1 & T1). apply (IH true cg1 cg'); auto.
    + apply bind_Ok in E1. destruct E1 as ([m c] & E1 & E2). injection E2 as <-. simpl in *.
      destruct (margin_calibd cg c its m H) as (_ & C1 & T1 & _); auto.
      { intros Q. now apply C. }
      apply (IH true c cg'); auto.
Qed.

(** The public meaning of a marginal. *)
Lemma marg_public (m : mixed) : mwf m -> (forall w, ev m w = marg (m_items m) w) -> holds_marginal LI fs m.
Proof.
  intros Wm H. exists (ev m). split.
  - intros w. unfold lval. now apply evaluate_ev.
  - intros order N1 N2 w. rewrite H. symmetry. apply (marg_order S LI X Fu _ Hnd F HF); auto.
    intros x. now rewrite N2, Hitems.
Qed.

Lemma calibd_public cg : inv cg -> calibd cg ->
  (forall c, In c (cg_clusters cg) -> holds_marginal LI fs c) /\
  (forall e, In e (cg_edges cg) -> holds_marginal LI fs (e_belief e)).
Proof.
  intros (H & W & _) [HC HE]. split.
  - intros c Hc. apply marg_public; [now apply W|]. apply In_nth_error in Hc. destruct Hc as [i Hi].
    exact (HC i c Hi).
  - intros e He. apply marg_public; [now apply (cw_edges S cg W e)|].
    apply In_nth_error in He. destruct He as [i Hi]. exact (HE i e Hi).
Qed.

Lemma includes_perm : forall y x : list Z, includes y x = true -> exists r, Permutation y (x ++ r).
Proof.
  induction y as [|c y IH]; intros x H.
  - destruct x; simpl in H; [exists []; constructor|discriminate].
  - destruct x as [|d x]; [exists (c :: y); apply Permutation_refl|]. simpl in H.
    destruct (Z.ltb_spec d c); [discriminate|]. destruct (Z.ltb_spec c d).
    + destruct (IH (d :: x) H) as [r Hr]. exists (c :: r). rewrite Hr. apply Permutation_middle.
    + assert (c = d) by lia. subst d. destruct (IH x H) as [r Hr]. exists r. simpl. now constructor.
Qed.
Lemma isSubset_nd a b : NoDup b -> isSubset a b = true <-> NoDup a /\ incl a b.
Proof.
  intros Hb. split.
  - intros E. pose proof E as E0. unfold isSubset in E0. apply includes_perm in E0. destruct E0 as [r Hr].
    assert (N : NoDup a).
    { assert (N1 : NoDup (sort a ++ r)).
      { eapply Permutation_NoDup; [exact Hr|]. eapply Permutation_NoDup; [|exact Hb].
        symmetry. apply sort_perm. }
      eapply Permutation_NoDup; [apply sort_perm|]. clear -N1. induction (sort a); constructor.
      - inversion N1; subst. rewrite in_app_iff in *. tauto.
      - apply IHl. now inversion N1. }
    split; auto. now apply isSubset_incl.
  - intros [Ha H]. now apply isSubset_incl.
Qed.

Lemma loop_marginal its def n cs m : forall k, (forall c, In c cs -> mwf c /\ incl (m_items c) items /\
    forall w, ev c w = marg (m_items c) w) -> cs <> [] ->
  (k + length cs = n)%nat -> margin_loop cs its def k n = Ok m ->
  mwf m /\ (forall x, In x (m_items m) <-> In x its) /\ NoDup its /\
  (exists c, In c cs /\ incl its (m_items c)) /\ (forall w, ev m w = marg (m_items m) w).
Proof.
  induction cs as [|c cs IH]; intros k H Hne Hk E; [congruence|]. cbn [margin_loop] in E.
  destruct (H c (or_introl eq_refl)) as (Wc & Ic & Mc).
  destruct (isSubset its (m_items c)) eqn:Es.
  - apply isSubset_nd in Es; [|apply Wc]. destruct Es as [Ni Hi].
    destruct (margin_wf S c m its false (X_scope S LI X) Wc Ni Hi E) as [Wm Im].
    split; auto. split; auto. split; auto. split; [exists c; split; [now left|auto]|].
    intros w. unfold margin in E.
    assert (H1 : NoDup (findItemsDifference (m_items c) its)) by apply findItemsDifference_NoDup, Wc.
    assert (H2 : incl (findItemsDifference (m_items c) its) (m_items c)).
    { intros x Hx. apply findItemsDifference_In in Hx. tauto. }
    rewrite (integrate_fold_ev S LI X L _ c m Wc H1 H2 E).
    rewrite (iterated_ext S LI (ei_ext _ _ X) _ _ (marg (m_items c))) by auto.
    apply (marg_more S LI X Fu _ Hnd F HF); auto.
    + intros x Hx. apply Hi, Im, Hx.
    + intros x. rewrite findItemsDifference_In, Im. tauto.
  - destruct (Nat.eqb_spec (Datatypes.S k) n); [discriminate|]. simpl in Hk.
    destruct (IH (Datatypes.S k)) as (A1 & A2 & A3 & (c1 & Hc1 & Hi1) & A4); auto.
    + intros c1 H1. apply H. now right.
    + destruct cs; [simpl in Hk; lia|discriminate].
    + lia.
    + split; auto. split; auto. split; auto. split; auto. exists c1. split; [now right|auto].
Qed.

Lemma loop_none its (def : mixed) n (cs : list mixed) : forall k, (forall c, In c cs -> mwf c) -> cs <> [] ->
  (k + length cs = n)%nat -> (forall c, In c cs -> NoDup its -> ~ incl its (m_items c)) ->
  margin_loop cs its def k n = Throw DomainError.
Proof.
  induction cs as [|c cs IH]; intros k H Hne Hk Hno; [congruence|]. cbn [margin_loop].
  destruct (isSubset its (m_items c)) eqn:Es.
  - apply isSubset_nd in Es; [|apply H; now left]. exfalso. apply (Hno c); try tauto. now left.
  - destruct (Nat.eqb_spec (Datatypes.S k) n); [reflexivity|]. simpl in Hk.
    apply IH; auto.
    + intros; apply H; now right.
    + destruct cs; [simpl in Hk; lia|discriminate].
    + lia.
    + intros; apply Hno; auto; now right.
Qed.

Lemma clusters_ne cg : inv cg -> cg_clusters cg <> [].
Proof.
  intros (H & _) E. pose proof (s_items _ _ _ _ H) as Hi. rewrite E in Hi. simpl in Hi.
  apply (elim_nonempty _ _ _ _ Hel). now symmetry.
Qed.

Lemma calibd_each cg : inv cg -> calibd cg -> forall c, In c (cg_clusters cg) ->
  mwf c /\ incl (m_items c) items /\ forall w, ev c w = marg (m_items c) w.
Proof.
  intros (H & _) [HC _] c Hc. split; [now apply (s_wf _ _ _ _ H)|]. split.
  - apply (elim_incl _ _ _ _ Hel (scopes_graph_wf _ _)). rewrite <- (s_items _ _ _ _ H). now apply in_map.
  - apply In_nth_error in Hc. destruct Hc as [i Hi]. exact (HC i c Hi).
Qed.

Lemma log_constant cg mean prec v : inv cg -> computeLogNormalizingConstant cg mean prec = Ok v ->
  is_marginal LI fs [] (fun _ => v).
Proof.
  intros H E. unfold computeLogNormalizingConstant in E. apply bind_Ok in E. destruct E as (cg1 & E1 & E).
  apply bind_Ok in E. destruct E as (cg2 & E2 & E).
  destruct (inv_setnormal53 _ _ _ _ H E1) as [(H1 & W1 & G1) _].
  destruct (forward_st S LI L X Fu _ _ _ _ _ Hel Hnd F HF cg1 cg2 H1 G1 E2)
    as (H2 & _ & cl & ml & Hcl & Nl & Il & Wl & Hml).
  destruct (elim_lengths Hel) as [HL1 HL2].
  assert (Hlen : length (cg_clusters cg2) = Datatypes.S (length seps)).
  { rewrite <- (map_length m_items), (s_items _ _ _ _ H2). auto. }
  unfold cg_logNormalizingConstant in E.
  replace (Z.of_nat (length (cg_clusters cg2)) - 1)%Z with (Z.of_nat (length seps)) in E by lia.
  rewrite (zat_Ok _ _ _ Nl) in E. cbn [bind] in E.
  intros order N1 N2 w. rewrite (last_value S LI L X ml v Wl E w).
  rewrite (iterated_ext S LI (ei_ext _ _ X) _ _ (marg (m_items ml))) by (rewrite Il; auto).
  rewrite (marg_more S LI X Fu _ Hnd F HF (m_items ml) []).
  - symmetry. apply (marg_order S LI X Fu _ Hnd F HF); auto. intros x. now rewrite N2, Hitems.
  - apply findItemsDifference_NoDup, Wl.
  - rewrite Il. apply (elim_incl _ _ _ _ Hel (scopes_graph_wf _ _)). eapply nth_error_In; eauto.
  - intros ? [].
  - intros x. now rewrite findItemsDifference_In.
Qed.
End Run.

Lemma build_start cg : build fs = Ok cg -> exists items es cls seps,
  elim (scopes_graph (map (bscope S) fs) items) es cls seps /\ NoDup items /\
  (forall x, In x items <-> exists f, In f fs /\ In x (bscope S f)) /\
  inv cls seps cg /\ cg_calibrated cg = false /\ map m_items (cg_clusters cg) = cls.
Proof.
  intros E. destruct (build_ok S fs Hok) as (cg' & items & es & cls & seps & E' & Hsh & Hp).
  rewrite E in E'. injection E' as <-.
  pose proof (sh_elim _ _ _ _ _ _ _ Hsh) as Hel.
  exists items, es, cls, seps. split; auto. split; [|split; [|split; [|split]]].
  - pose proof (sh_sorted _ _ _ _ _ _ _ Hsh) as Hs. clear -Hs. induction Hs as [|x l H IH Hx]; constructor; auto.
    intros Hin. rewrite Forall_forall in Hx. specialize (Hx _ Hin). lia.
  - intros x. rewrite (sh_items _ _ _ _ _ _ _ Hsh). split.
    + intros (s & Hs & Hx). apply in_map_iff in Hs. destruct Hs as (f & <- & Hf). eauto.
    + intros (f & Hf & Hx). exists (bscope S f). split; auto. now apply in_map.
  - assert (Q : forall w, cgwf S cg /\ grand S cg w = F w) by (intros w; apply (build_inv S L fs cg w Hok E)).
    split; [|split; [apply (Q (fun _ => dzero S))|intros w; apply Q]].
    split; try apply Hsh. intros i s Hi. destruct (sh_edge _ _ _ _ _ _ _ Hsh i s Hi) as (p & He & Hfc).
    exists p, (mixed_of_items s). split; auto. split; auto. split; [|simpl; tauto].
    apply mwf_of_items. destruct (elim_lengths Hel) as [HL1 HL2].
    destruct (nth_error es i) as [e|] eqn:Ee.
    + destruct (elim_cluster _ _ _ _ Hel (scopes_graph_wf _ _) i e s Ee Hi) as (? & _ & _ & _ & H & _). exact H.
    + apply nth_error_None in Ee. assert (i < length seps)%nat by (apply nth_error_Some; congruence). lia.
  - apply Hsh.
  - apply Hsh.
Qed.

Lemma C53_calibrate_main ops cg cg1 cg2 : build fs = Ok cg -> run_ops cg ops = Ok cg1 ->
  calibrate cg1 = Ok cg2 ->
  map m_items (cg_clusters cg2) = map m_items (cg_clusters cg) /\
  (forall c, In c (cg_clusters cg2) -> holds_marginal LI fs c) /\
  (forall e, In e (cg_edges cg2) -> holds_marginal LI fs (e_belief e)).
Proof.
  intros E0 E1 E2. destruct (build_start cg E0) as (items & es & cls & seps & Hel & Hnd & Hit & H & C & Hc).
  pose proof (inv_ops53 _ _ _ _ Hel Hnd _ _ _ H E1) as H1.
  destruct (inv_calibrate53 _ _ _ _ Hel Hnd _ _ H1 E2) as (H2 & C2 & _).
  split; [rewrite Hc; apply H2|]. now apply (calibd_public items cls seps Hnd Hit).
Qed.

Lemma C53_margin_main ops cg cg1 cg2 its m : build fs = Ok cg -> no_reset false ops = true ->
  run_ops cg ops = Ok cg1 -> cg_margin cg1 its = Ok (m, cg2) ->
  (forall x, In x (m_items m) <-> In x its) /\ NoDup its /\
  (exists c, In c (map m_items (cg_clusters cg)) /\ incl its c) /\ holds_marginal LI fs m.
Proof.
  intros E0 N E1 E2. destruct (build_start cg E0) as (items & es & cls & seps & Hel & Hnd & Hit & H & C & Hc).
  pose proof (inv_ops53 _ _ _ _ Hel Hnd _ _ _ H E1) as H1.
  assert (C1 : cg_calibrated cg1 = true -> calibd S LI items F cg1).
  { intros T. apply (honest_ops _ _ _ _ Hel Hnd ops false cg cg1); auto. congruence. }
  destruct (margin_calibd _ _ _ _ Hel Hnd _ _ _ _ H1 C1 E2) as (H2 & C2 & _ & E3).
  destruct (loop_marginal items Hnd its _ _ _ m 0%nat
     (calibd_each _ _ _ _ Hel cg2 H2 C2) (clusters_ne _ _ _ _ Hel cg2 H2) eq_refl E3)
    as (A1 & A2 & A3 & (c & Hc1 & Hc2) & A4).
  split; auto. split; auto. split.
  - exists (m_items c). split; auto. rewrite Hc. destruct H2 as (H2 & _).
    rewrite <- (s_items _ _ _ _ H2). now apply in_map.
  - now apply (marg_public _ Hnd Hit).
Qed.

Lemma C53_outside_main ops cg cg1 cg2 its : build fs = Ok cg -> run_ops cg ops = Ok cg1 ->
  calibrate cg1 = Ok cg2 ->
  (forall c, In c (map m_items (cg_clusters cg)) -> NoDup its -> ~ incl its c) ->
  cg_margin cg1 its = Throw DomainError.
Proof.
  intros E0 E1 E2 Hno. destruct (build_start cg E0) as (items & es & cls & seps & Hel & Hnd & Hit & H & C & Hc).
  pose proof (inv_ops53 _ _ _ _ Hel Hnd _ _ _ H E1) as H1.
  destruct (inv_calibrate53 _ _ _ _ Hel Hnd _ _ H1 E2) as (H2 & _).
  assert (G : forall c, inv cls seps c -> margin_loop (cg_clusters c) its (mixed_of_items its) 0
              (length (cg_clusters c)) = Throw DomainError).
  { intros c Hi. apply loop_none; auto.
    - intros m Hm. destruct Hi as (Hi & _). now apply (s_wf _ _ _ _ Hi).
    - now apply (clusters_ne _ _ _ _ Hel).
    - intros m Hm. apply Hno. rewrite Hc. destruct Hi as (Hi & _). rewrite <- (s_items _ _ _ _ Hi).
      now apply in_map. }
  unfold cg_margin. destruct (cg_calibrated cg1); cbn [bind].
  - now rewrite G.
  - rewrite E2. cbn [bind]. now rewrite G.
Qed.

Lemma C53_constant_main ops cg cg1 mean prec v : build fs = Ok cg -> run_ops cg ops = Ok cg1 ->
  computeLogNormalizingConstant cg1 mean prec = Ok v -> is_marginal LI fs [] (fun _ => v).
Proof.
  intros E0 E1 E2. destruct (build_start cg E0) as (items & es & cls & seps & Hel & Hnd & Hit & H & C & Hc).
  pose proof (inv_ops53 _ _ _ _ Hel Hnd _ _ _ H E1) as H1.
  exact (log_constant _ _ _ _ Hel Hnd Hit cg1 mean prec v H1 E2).
Qed.
End Main.
