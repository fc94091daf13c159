(** Final forms of C10 and C11. *)
From Coq Require Import List ZArith Bool Lia Arith Sorted Permutation.
From Verif Require Import Model.Base Model.Items Model.Mixed Model.ClusterGraph
  Spec.GraphSpec Spec.ElimSpec Spec.BeliefSpec Spec.TreeSpec Spec.IntegralSpec Spec.MessageSpec
  Proofs.ListLemmas Proofs.ItemsLemmas Proofs.ElimLemmas Proofs.MixedLemmas Proofs.BuildLemmas
  Proofs.ClusterMain Proofs.GroupTac Proofs.MessageLemmas.
Import ListNotations.

Section Main.
Variable S : sig.
Hypothesis L : group_laws S.
Notation mixed := (mixed S).

(** ** Operations that only touch the normal approximations *)
Definition same (m m' : mixed) : Prop :=
  m_items m' = m_items m /\ factors m' = factors m /\ (mwf m -> mwf m').

Lemma same_refl m : same m m. Proof. split; [auto|split; auto]. Qed.
Lemma same_trans a b c : same a b -> same b c -> same a c.
Proof. intros (A1 & A2 & A3) (B1 & B2 & B3). split; [congruence|]. split; [congruence|auto]. Qed.
Lemma same_set m mu p : same m (setNormalApprox m mu p).
Proof.
  unfold setNormalApprox. destruct (m_fixed m); [apply same_refl|]. split; auto. split; auto.
  intros [? ? ? ? ?]. split; simpl; auto.
Qed.
Lemma same_fix m : same m (fixNormalApprox m).
Proof. split; auto. split; auto. intros [? ? ? ? ?]. split; simpl; auto. Qed.

Lemma same_ev m m' w : same m m' -> ev m' w = ev m w.
Proof. intros (_ & H & _). rewrite !ev_total by auto. now rewrite H. Qed.

Definition same_edge (e e' : edge S) : Prop :=
  e_first e' = e_first e /\ e_second e' = e_second e /\ same (e_belief e) (e_belief e').

Definition same_cg (cg cg' : cgraph S) : Prop :=
  Forall2 same (cg_clusters cg) (cg_clusters cg') /\
  Forall2 same_edge (cg_edges cg) (cg_edges cg').

Lemma F2_nth {A C} (R : A -> C -> Prop) l l' i x : Forall2 R l l' -> nth_error l i = Some x ->
  exists y, nth_error l' i = Some y /\ R x y.
Proof.
  intros H. revert i. induction H; intros [|i] E; simpl in *; try discriminate; eauto.
  injection E as ->. eauto.
Qed.
Lemma F2_In {A C} (R : A -> C -> Prop) l l' y : Forall2 R l l' -> In y l' -> exists x, In x l /\ R x y.
Proof.
  induction 1; intros Hy; [destruct Hy|]. destruct Hy as [->|Hy]; [eexists; split; [now left|eauto]|].
  destruct IHForall2 as (x' & ? & ?); auto. exists x'. split; auto. now right.
Qed.
Lemma F2_map {A C E} (R : A -> C -> Prop) (f : A -> E) (g : C -> E) l l' :
  Forall2 R l l' -> (forall x y, R x y -> g y = f x) -> map g l' = map f l.
Proof. intros H Hfg. induction H; simpl; auto. rewrite (Hfg _ _ H). congruence. Qed.
Lemma F2_mapM {A C} (R : A -> C -> Prop) (f : A -> outcome C) l l' :
  mapM f l = Ok l' -> (forall x y, f x = Ok y -> R x y) -> Forall2 R l l'.
Proof.
  intros E H. revert l' E. induction l as [|x l IH]; intros l' E; simpl in E.
  - injection E as <-. constructor.
  - apply bind_Ok in E. destruct E as (y & E1 & E). apply bind_Ok in E. destruct E as (ys & E2 & E).
    injection E as <-. constructor; auto.
Qed.
Lemma F2_mapr {A C} (R : A -> C -> Prop) (f : A -> C) l : (forall x, R x (f x)) -> Forall2 R l (map f l).
Proof. intros H. induction l; simpl; constructor; auto. Qed.
Lemma F2_trans {A} (R : A -> A -> Prop) : (forall a b c, R a b -> R b c -> R a c) ->
  forall l1 l2, Forall2 R l1 l2 -> forall l3, Forall2 R l2 l3 -> Forall2 R l1 l3.
Proof. intros HR l1 l2 H. induction H; intros l3 H3; inversion H3; subst; constructor; eauto. Qed.

Lemma same_edge_trans a b c : same_edge a b -> same_edge b c -> same_edge a c.
Proof.
  intros (A1 & A2 & A3) (B1 & B2 & B3). split; [congruence|]. split; [congruence|].
  eapply same_trans; eauto.
Qed.
Lemma same_cg_trans a b c : same_cg a b -> same_cg b c -> same_cg a c.
Proof.
  intros [A1 A2] [B1 B2]. split; eapply F2_trans; eauto; [apply same_trans|apply same_edge_trans].
Qed.

Lemma same_cgwf cg cg' : same_cg cg cg' -> cgwf S cg -> cgwf S cg'.
Proof.
  intros [H1 H2] W. split.
  - intros c Hc. destruct (F2_In _ _ _ _ H1 Hc) as (c0 & Hc0 & (_ & _ & Hw)). apply Hw, W, Hc0.
  - intros e He. destruct (F2_In _ _ _ _ H2 He) as (e0 & He0 & (Hf & Hs & (Hi & _ & Hw))).
    destruct (cw_edges S cg W e0 He0) as (We & i & j & ci & cj & F0 & S0 & Ni & Nj & Ii & Ij).
    split; [apply Hw, We|].
    destruct (F2_nth _ _ _ _ _ H1 Ni) as (ci' & Ni' & (Hci & _)).
    destruct (F2_nth _ _ _ _ _ H1 Nj) as (cj' & Nj' & (Hcj & _)).
    exists i, j, ci', cj'. rewrite Hf, Hs, Hi, Hci, Hcj. repeat (split; auto).
Qed.

Lemma same_grand cg cg' w : same_cg cg cg' -> grand S cg' w = grand S cg w.
Proof.
  intros [H1 H2]. unfold grand. f_equal; f_equal.
  - eapply F2_map; eauto. intros; now apply same_ev.
  - eapply F2_map; eauto. intros x y (_ & _ & H). simpl. now apply same_ev.
Qed.

(** ** C10 *)
Definition inv10 (w : Z -> D S) (v : D S) (cg : cgraph S) : Prop := cgwf S cg /\ grand S cg w = v.

Lemma foldM_inv {A St} (P : St -> Prop) (f : St -> A -> outcome St) :
  (forall s a s', P s -> f s a = Ok s' -> P s') ->
  forall l s s', P s -> foldM f l s = Ok s' -> P s'.
Proof.
  intros H. induction l as [|a l IH]; intros s s' Hs E; simpl in E.
  - injection E as <-. auto.
  - apply bind_Ok in E. destruct E as (s1 & E1 & E). eauto.
Qed.

Lemma inv_pass w v cg k f n cg' : scope_law S -> inv10 w v cg -> passMessage cg k f n = Ok cg' -> inv10 w v cg'.
Proof.
  intros HL [W G] E. destruct (pass_grand S L cg cg' k f n HL W E) as (W' & G' & _).
  split; auto. now rewrite G'.
Qed.
Lemma inv_cal w v cg f n cg' : scope_law S -> inv10 w v cg -> calibrateInternal cg f n = Ok cg' -> inv10 w v cg'.
Proof.
  intros HL H E. unfold calibrateInternal in E.
  eapply (foldM_inv (inv10 w v)); [|exact H|exact E]. intros s a s' Hs Es. eapply inv_pass; [exact HL|exact Hs|exact Es].
Qed.

Lemma set_same cg mean prec clusters edges :
  mapM (fun c => mu <- getVectorSubset S mean (m_items c) ;;
                Ok (setNormalApprox c mu (getSparseMatrixSubset S prec (m_items c))))
              (cg_clusters cg) = Ok clusters ->
  mapM (fun e => mu <- getVectorSubset S mean (m_items (e_belief e)) ;;
                Ok (mkEdge (e_first e) (e_second e)
                     (setNormalApprox (e_belief e) mu
                        (getSparseMatrixSubset S prec (m_items (e_belief e))))))
              (cg_edges cg) = Ok edges ->
  same_cg cg (mkCG clusters edges (cg_calibrated cg)).
Proof.
  intros E1 E2. split; simpl.
  - eapply F2_mapM; [exact E1|]. intros x y E. simpl in E. apply bind_Ok in E.
    destruct E as (mu & _ & E). injection E as <-. apply same_set.
  - eapply F2_mapM; [exact E2|]. intros x y E. simpl in E. apply bind_Ok in E.
    destruct E as (mu & _ & E). injection E as <-. split; auto. split; auto. simpl. apply same_set.
Qed.

Lemma fix_same cg : same_cg cg
  (mkCG (map fixNormalApprox (cg_clusters cg))
        (map (fun e => mkEdge (e_first e) (e_second e) (fixNormalApprox (e_belief e))) (cg_edges cg))
        (cg_calibrated cg)).
Proof.
  split; simpl; apply F2_mapr.
  - apply same_fix.
  - intros e. split; auto. split; auto. simpl. apply same_fix.
Qed.

Lemma inv_same w v cg cg' : inv10 w v cg -> same_cg cg cg' -> inv10 w v cg'.
Proof.
  intros [W G] H. split; [eapply same_cgwf; eauto|]. rewrite (same_grand cg cg' w H). auto.
Qed.

Lemma inv_setnormal w v cg mean prec cg' : scope_law S -> inv10 w v cg ->
  cg_setNormalApprox cg mean prec = Ok cg' -> inv10 w v cg'.
Proof.
  intros HL H E. unfold cg_setNormalApprox in E.
  apply bind_Ok in E. destruct E as (clusters & E1 & E).
  apply bind_Ok in E. destruct E as (edges & E2 & E).
  apply bind_Ok in E. destruct E as (cg1 & E3 & E).
  apply bind_Ok in E. destruct E as (cg2 & E4 & E). injection E as <-.
  eapply inv_same; [|apply fix_same].
  eapply inv_cal; [exact HL| |exact E4]. eapply inv_cal; [exact HL| |exact E3].
  eapply inv_same; [exact H|]. now apply (set_same _ mean prec).
Qed.

Lemma inv_calibrate w v cg cg' : scope_law S -> inv10 w v cg -> calibrate cg = Ok cg' -> inv10 w v cg'.
Proof.
  intros HL H E. unfold calibrate in E. apply bind_Ok in E. destruct E as (cg1 & E1 & E).
  apply bind_Ok in E. destruct E as (cg2 & E2 & E). injection E as <-.
  assert (H2 : inv10 w v cg2).
  { eapply inv_cal; [exact HL| |exact E2]. eapply inv_cal; [exact HL|exact H|exact E1]. }
  destruct H2 as [W G]. split; [|exact G]. destruct W. split; simpl; auto.
Qed.

Lemma inv_op w v cg o cg' : scope_law S -> inv10 w v cg -> run_op cg o = Ok cg' -> inv10 w v cg'.
Proof.
  intros HL H E. destruct o; simpl in E.
  - eapply inv_pass; eauto.
  - eapply inv_setnormal; eauto.
  - eapply inv_cal; eauto.
  - eapply inv_cal; eauto.
  - eapply inv_calibrate; eauto.
  - apply bind_Ok in E. destruct E as ([m c] & E1 & E). injection E as <-. simpl.
    unfold cg_margin in E1. apply bind_Ok in E1. destruct E1 as (c' & E2 & E1).
    apply bind_Ok in E1. destruct E1 as (m' & _ & E1). injection E1 as <- <-.
    destruct (cg_calibrated cg); [injection E2 as <-; auto|]. eapply inv_calibrate; eauto.
Qed.

Lemma inv_ops w v ops cg cg' : scope_law S -> inv10 w v cg -> run_ops cg ops = Ok cg' -> inv10 w v cg'.
Proof.
  intros HL H E. unfold run_ops in E. eapply (foldM_inv (inv10 w v)); [|exact H|exact E].
  intros; eapply inv_op; eauto.
Qed.

Lemma sum_lvals_ev w l : (forall m, In m l -> mwf m) ->
  sum_lvals w l = Ok (dsumS S (map (fun m => ev m w) l)).
Proof.
  intros H. unfold sum_lvals.
  assert (E : mapM (lval w) l = Ok (map (fun m => ev m w) l)).
  { induction l as [|m l IH]; simpl; auto. unfold lval at 1. rewrite evaluate_ev by (apply H; now left).
    cbn [bind]. rewrite IH by (intros; apply H; now right). reflexivity. }
  now rewrite E.
Qed.

Lemma potential_grand w cg : cgwf S cg -> potential cg w = Ok (grand S cg w).
Proof.
  intros W. unfold potential. rewrite sum_lvals_ev by apply W. cbn [bind].
  rewrite sum_lvals_ev.
  - cbn [bind]. rewrite map_map. reflexivity.
  - intros m Hm. apply in_map_iff in Hm. destruct Hm as (e & <- & He). now apply (cw_edges S cg W e).
Qed.

Lemma total_concat w (l : list mixed) :
  dsumS S (map (fun m => ev m w) l) = total S w (concat (map factors l)).
Proof.
  induction l as [|m l IH]; simpl; auto. rewrite total_app by auto. rewrite <- IH.
  unfold dsumS; simpl. now rewrite ev_total.
Qed.
Lemma total_plain w (fs : list (B S)) : total S w (map (fun f => (f, false)) fs) = dsumS S (map (fval S w) fs).
Proof. unfold total. rewrite map_map. reflexivity. Qed.

Lemma build_inv fs cg w : scopes_ok fs -> build fs = Ok cg ->
  inv10 w (dsumS S (map (fval S w) fs)) cg.
Proof.
  intros Hok E. destruct (build_ok S fs Hok) as (cg' & items & es & cls & seps & E' & Hsh & Hp).
  rewrite E in E'. injection E' as <-.
  assert (He : forall e, In e (cg_edges cg) -> exists i s p, nth_error seps i = Some s /\
     first_containing cls i s p /\ e = mkEdge (Z.of_nat i) (Z.of_nat p) (mixed_of_items s)).
  { intros e He. apply In_nth_error in He. destruct He as [i Hi].
    destruct (sh_edge_at S _ _ _ _ _ _ Hsh i e Hi) as (s & p & ? & ? & ?). eauto 8. }
  assert (Hnd : forall i s, nth_error seps i = Some s -> NoDup s /\ exists c, nth_error cls i = Some c /\ incl s c).
  { intros i s Hi. pose proof (sh_elim _ _ _ _ _ _ _ Hsh) as Hel.
    destruct (elim_lengths Hel) as [HL1 HL2].
    assert (i < length seps)%nat by (apply nth_error_Some; congruence).
    destruct (nth_error es i) as [x|] eqn:Ee; [|apply nth_error_None in Ee; lia].
    destruct (elim_cluster _ _ _ _ Hel (scopes_graph_wf _ _) i x s Ee Hi) as (c & H1 & H2 & _ & H3 & _).
    split; auto. exists c. split; auto. intros y Hy. apply H2. auto. }
  assert (Hcl : forall i c, nth_error cls i = Some c -> exists m, nth_error (cg_clusters cg) i = Some m /\ m_items m = c).
  { intros i c Hi. rewrite <- (sh_clusters _ _ _ _ _ _ _ Hsh) in Hi.
    destruct (nth_error (cg_clusters cg) i) as [m|] eqn:Em.
    - rewrite (map_nth_error _ _ _ Em) in Hi. injection Hi as <-. eauto.
    - apply nth_error_None in Em. assert (i < length (map m_items (cg_clusters cg)))%nat by (apply nth_error_Some; congruence). rewrite map_length in *. lia. }
  split.
  - split; [apply Hsh|]. intros e Hin. destruct (He e Hin) as (i & s & p & Hi & (Hip & (c' & Hc' & Hsc') & _) & ->).
    destruct (Hnd i s Hi) as (Hs & c & Hc & Hsc). simpl. split; [now apply mwf_of_items|].
    destruct (Hcl i c Hc) as (m & Nm & <-), (Hcl p c' Hc') as (m' & Nm' & <-).
    exists i, p, m, m'. repeat (split; auto).
  - unfold grand.
    assert (Z1 : dsumS S (map (fun e => ev (e_belief e) w) (cg_edges cg)) = dzero S).
    { rewrite <- (sum_zero S L (cg_edges cg)). apply sum_ext. intros e Hin.
      destruct (He e Hin) as (i & s & p & _ & _ & ->). simpl. reflexivity. }
    rewrite Z1, total_concat, (total_perm S L w _ _ Hp), total_plain. dgroup L.
Qed.

Lemma extract_fold w : forall (es : list (edge S)) (bs : list mixed), (forall m, In m bs -> mwf m) ->
  (forall e, In e es -> mwf (e_belief e) /\ exists j cj, e_second e = Z.of_nat j /\
       nth_error bs j = Some cj /\ incl (m_items (e_belief e)) (m_items cj)) ->
  exists bs', foldM (fun beliefs e =>
           b <- zat beliefs (e_second e) ;;
           Ok (upd beliefs (Z.to_nat (e_second e)) (mixed_div b (e_belief e)))) es bs = Ok bs' /\
    (forall m, In m bs' -> mwf m) /\ map m_items bs' = map m_items bs /\
    dsumS S (map (fun m => ev m w) bs') =
    dsub S (dsumS S (map (fun m => ev m w) bs)) (dsumS S (map (fun e => ev (e_belief e) w) es)).
Proof.
  induction es as [|e es IH]; intros bs Hb He.
  - exists bs. split; auto. split; auto. split; auto. simpl. unfold dsumS; simpl; fold (dsumS S (map (fun m => ev m w) bs)). dgroup L.
  - destruct (He e (or_introl eq_refl)) as (We & j & cj & Hj & Nj & Ij).
    simpl. rewrite Hj, (zat_Ok _ _ _ Nj), Nat2Z.id. cbn [bind].
    assert (Wj : mwf cj) by (apply Hb; eapply nth_error_In; eauto).
    assert (Ic : m_items (mixed_div cj (e_belief e)) = m_items cj) by now apply div_items.
    assert (Hmap : map m_items (upd bs j (mixed_div cj (e_belief e))) = map m_items bs).
    { rewrite upd_map, Ic. apply upd_same. now apply map_nth_error. }
    destruct (IH (upd bs j (mixed_div cj (e_belief e)))) as (bs' & E & H1 & H2 & H3).
    { intros m Hm. apply upd_In in Hm. destruct Hm as [->|Hm]; auto. now apply mwf_div. }
    { intros e' He'. destruct (He e' (or_intror He')) as (We' & j' & cj' & Hj' & Nj' & Ij').
      split; auto. destruct (Nat.eq_dec j j') as [<-|Hne].
      - exists j, (mixed_div cj (e_belief e)). split; auto. split.
        + apply nth_error_upd_eq. apply nth_error_Some. congruence.
        + assert (cj' = cj) by congruence. subst. now rewrite Ic.
      - exists j', cj'. split; auto. split; auto. now rewrite nth_error_upd_neq. }
    exists bs'. split; auto. split; auto. split; [congruence|]. rewrite H3.
    pose proof (sum_upd S L (fun m => ev m w) bs j (mixed_div cj (e_belief e)) cj Nj) as Hu. simpl in Hu.
    rewrite ev_div in Hu by auto. change (dsumS S (map (fun e0 => ev (e_belief e0) w) (e :: es))) with (dadd S (ev (e_belief e) w) (dsumS S (map (fun e0 => ev (e_belief e0) w) es))).
    apply (d_move S L _ _ _ _ Hu). dgroup L.
Qed.

Lemma C10_main (fs : list (B S)) ops cg cg' :
  scopes_ok fs -> scope_law S ->
  build fs = Ok cg -> run_ops cg ops = Ok cg' ->
  forall w, potential cg' w = Ok (dsumS S (map (fval S w) fs)) /\
    exists bs, extractBeliefs cg' = Ok bs /\ sum_lvals w bs = Ok (dsumS S (map (fval S w) fs)).
Proof.
  intros Hok HL E1 E2 w.
  destruct (inv_ops w _ ops cg cg' HL (build_inv fs cg w Hok E1) E2) as [W G].
  split; [rewrite potential_grand by auto; now rewrite G|].
  destruct (extract_fold w (cg_edges cg') (cg_clusters cg')) as (bs & E & Hm & _ & Hv).
  { apply W. }
  { intros e He. destruct (cw_edges S cg' W e He) as (We & i & j & ci & cj & F0 & S0 & Ni & Nj & Ii & Ij).
    eauto 8. }
  exists bs. split; auto. rewrite sum_lvals_ev by auto. f_equal. rewrite Hv. exact G.
Qed.
End Main.
