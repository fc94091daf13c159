(** C57: the only way to fail. *)
From Coq Require Import List ZArith Bool Lia Arith.
From Verif Require Import Model.Base Model.Items Model.Mixed Model.ClusterGraph
  Spec.GraphSpec Spec.ElimSpec Spec.BeliefSpec Spec.TreeSpec Spec.MixedSpec Spec.TotalSpec
  Proofs.ListLemmas Proofs.ItemsLemmas Proofs.ElimLemmas Proofs.MixedLemmas Proofs.BuildLemmas
  Proofs.ClusterMain Proofs.MessageLemmas Proofs.MessageMain Proofs.MixedMain.
Import ListNotations.

(** Normals of a given size. *)
Record size_laws (S : sig) (sized : nat -> MN S -> Prop) : Prop := {
  sl_mean : forall d n, sized d n -> length (mn_mean S n) = d;
  sl_given : forall d mean prec, length mean = d -> length prec = d -> (forall row, In row prec -> length row = d) -> sized d (mn_given S mean prec);
  sl_mul : forall d a b subset, sized d a -> sized (length subset) b -> sized d (mn_mul S a b subset);
  sl_div : forall d a b subset, sized d a -> sized (length subset) b -> sized d (mn_div S a b subset);
  sl_marginal : forall d a subset, sized d a -> sized (length subset) (mn_marginal S a subset)
}.

Section Total.
Variable S : sig.
Hypothesis L : group_laws S.
Variable sized : nat -> MN S -> Prop.
Hypothesis Sz : size_laws S sized.
Hypothesis HL : scope_law S.
Notation mixed := (mixed S).
(** What is known of the beliefs. *)
Variable good : B S -> Prop.
(** No cluster has more items. *)
Variable cap : nat.

(** * Outcomes *)
Definition safe {A} (o : outcome A) (Q : A -> Prop) : Prop :=
  match o with
  | Ok a => Q a
  | Throw RuntimeError => exists x, d_isnormal S x = false
  | _ => False
  end.
Lemma safe_bind {A C} (o : outcome A) (f : A -> outcome C) (Q : A -> Prop) (R : C -> Prop) :
  safe o Q -> (forall a, o = Ok a -> Q a -> safe (f a) R) -> safe (bind o f) R.
Proof. intros H G. destruct o as [a|e| |]; cbn [bind safe] in *; auto. Qed.
Lemma safe_fold {A T} (f : T -> A -> outcome T) (I : T -> Prop) : forall l s, I s ->
  (forall s x, In x l -> I s -> safe (f s x) I) -> safe (foldM f l s) I.
Proof.
  induction l as [|x l IH]; intros s Hs Hf; cbn [foldM]; auto.
  apply safe_bind with (Q := I); [apply Hf; auto; now left|]. intros a _ Ha. apply IH; auto.
  intros s' y Hy. apply Hf. now right.
Qed.

(** * Beliefs *)
Record gm (m : mixed) : Prop := {
  gm_wf : mwf m;
  gm_sized : sized (length (m_items m)) (n_normal (m_normal m));
  gm_shaped : forall b, In b (m_beliefs m) -> NoDup (bscope S b) /\ good b;
  gm_cap : (length (m_items m) <= cap)%nat
}.
Hypothesis HI : forall m k items, gm m -> NoDup items -> (k <= length items)%nat -> length (m_items m) = Datatypes.S (length items) ->
  exists b, b_integral S (evaluate m) (evaluateDerivative m) (evaluateSecondDerivative m) k (n_normal (m_normal m)) items = Ok b /\
  bscope S b = items /\ good b.

Lemma as_map (items : list Z) (x : list (D S)) : NoDup items -> length x = length items ->
  exists w : Z -> D S, map w items = x.
Proof.
  intros Hn. revert x. induction Hn as [|i items Hi Hn IH]; intros [|a x] Hl; try discriminate.
  - exists (fun _ => dzero S). reflexivity.
  - destruct (IH x) as (w & Hw); [simpl in Hl; lia|].
    exists (fun j => if Z.eqb j i then a else w j). simpl. rewrite Z.eqb_refl. f_equal. rewrite <- Hw.
    apply map_ext_in. intros j Hj. destruct (Z.eqb_spec j i) as [->|]; [tauto|auto].
Qed.

Lemma gm_mean m : gm m -> length (mn_mean S (n_normal (m_normal m))) = length (m_items m).
Proof. intros G. exact (sl_mean _ _ Sz _ _ (gm_sized _ G)). Qed.
Lemma rel_length l items : length (findRelativeItems l items) = length l.
Proof. unfold findRelativeItems. apply map_length. Qed.
Lemma gm_eval m x : gm m -> length x = length (m_items m) -> exists v, evaluate m x = Ok v.
Proof.
  intros G Hl. destruct (as_map _ x (mwf_nd _ _ (gm_wf _ G)) Hl) as (w & <-).
  rewrite (evaluate_ev S m w (gm_wf _ G)). eauto.
Qed.
Lemma gm_mul m o : gm m -> gm o -> incl (m_items o) (m_items m) -> gm (mixed_mul m o).
Proof.
  intros [A1 A2 A3 A4] [B1 B2 B3 B4] Hi. constructor.
  - now apply mwf_mul.
  - rewrite mul_items by auto. unfold mixed_mul, recompute. cbn [m_normal]. destruct (m_fixed m); auto.
    cbn [n_mul n_normal]. apply (sl_mul _ _ Sz); auto. rewrite rel_length, (mwf_normal _ _ B1). exact B2.
  - intros b Hb. unfold mixed_mul, recompute in Hb. cbn [m_beliefs] in Hb. apply in_app_or in Hb. destruct Hb; auto.
  - rewrite mul_items by auto. exact A4.
Qed.
Lemma gm_div m o : gm m -> gm o -> incl (m_items o) (m_items m) -> gm (mixed_div m o).
Proof.
  intros [A1 A2 A3 A4] [B1 B2 B3 B4] Hi. constructor.
  - now apply mwf_div.
  - rewrite div_items by auto. unfold mixed_div, recompute. cbn [m_normal]. destruct (m_fixed m); auto.
    cbn [n_div n_normal]. apply (sl_div _ _ Sz); auto. rewrite rel_length, (mwf_normal _ _ B1). exact B2.
  - intros b Hb. unfold mixed_div, recompute in Hb. cbn [m_beliefs] in Hb. apply in_app_or in Hb. destruct Hb; auto.
  - rewrite div_items by auto. exact A4.
Qed.

Lemma erase_length {A} (l : list A) k : (k < length l)%nat -> length l = Datatypes.S (length (erase l k)).
Proof. revert k. induction l as [|x l IH]; intros [|k] H; simpl in *; try lia. rewrite <- IH; lia. Qed.
Lemma relative_lt i l : In i l -> (findRelativeItem i l < length l)%nat.
Proof. intros H. apply findRelativeItem_spec in H. apply nth_error_Some. congruence. Qed.

Lemma integrate_ok m i : gm m -> In i (m_items m) ->
  exists m', integrate m i = Ok m' /\ gm m' /\ m_items m' = filter (fun x => negb (x =? i)%Z) (m_items m).
Proof.
  intros G Hi. pose proof (gm_wf _ G) as W. unfold integrate.
  set (k := findRelativeItem i (m_items m)).
  assert (Hk : (k < length (m_items m))%nat) by now apply relative_lt.
  pose proof (erase_length _ _ Hk) as Hlen.
  assert (Her : erase (m_items m) k = filter (fun x => negb (x =? i)%Z) (m_items m)) by (apply erase_pos; auto; apply W).
  destruct (HI m k (erase (m_items m) k) G) as (b & Eb & Hs & Sh).
  - rewrite Her. apply NoDup_filter, W.
  - lia.
  - exact Hlen.
  - rewrite Eb. cbn [bind]. eexists. split; [reflexivity|].
    assert (E : integrate m i = Ok (setNormal (mixed_of_belief b) (n_margin (m_normal m) (erase (m_items m) k)))).
    { unfold integrate. fold k. rewrite Eb. reflexivity. }
    destruct (integrate_wf S m _ i HL W Hi E) as (W' & I' & _). split; auto. constructor; auto.
    + rewrite I', <- Her. unfold setNormal. cbn [mixed_of_belief recompute m_fixed m_normal n_margin n_normal].
      rewrite <- (rel_length (erase (m_items m) k) (n_items (m_normal m))) at 1. exact (sl_marginal _ _ Sz _ _ _ (gm_sized _ G)).
    + intros b' Hb'. unfold setNormal in Hb'. cbn in Hb'. destruct Hb' as [<-|[]]. split; auto.
      rewrite Hs, Her. apply NoDup_filter, W.
    + rewrite I', <- Her. pose proof (gm_cap _ G). lia.
Qed.

Lemma integrate_fold_ok : forall is m, gm m -> NoDup is -> incl is (m_items m) ->
  exists m', foldM integrate is m = Ok m' /\ gm m'.
Proof.
  induction is as [|i is IH]; intros m G Hn Hi.
  - exists m. split; auto.
  - inversion Hn as [|? ? Hni Hn']; subst.
    destruct (integrate_ok m i G) as (m1 & E1 & G1 & I1); [apply Hi; now left|].
    destruct (IH m1 G1 Hn') as (m2 & E2 & G2).
    { intros x Hx. rewrite I1. apply filter_In. split; [apply Hi; now right|].
      destruct (Z.eqb_spec x i); auto. subst; tauto. }
    exists m2. split; auto. cbn [foldM]. rewrite E1. exact E2.
Qed.

Lemma margin_ok m items b : gm m -> NoDup items -> incl items (m_items m) ->
  exists m', margin m items b = Ok m' /\ gm m'.
Proof.
  intros G Hn Hi. destruct b.
  - eexists. split; [reflexivity|].
    destruct (margin_wf S m _ items true HL (gm_wf _ G) Hn Hi eq_refl) as [W' _]. constructor; auto.
    + unfold setNormal. cbn [mixed_of_items m_fixed m_items m_normal n_margin n_normal].
      rewrite <- (rel_length items (n_items (m_normal m))) at 1. exact (sl_marginal _ _ Sz _ _ _ (gm_sized _ G)).
    + intros b [].
    + cbn [setNormal mixed_of_items m_items]. pose proof (NoDup_incl_length Hn Hi). pose proof (gm_cap _ G). change (length items <= cap)%nat. lia.
  - unfold margin. apply integrate_fold_ok; auto.
    + apply findItemsDifference_NoDup, (gm_wf _ G).
    + intros x Hx. apply findItemsDifference_In in Hx. tauto.
Qed.

Lemma proper_ok m : gm m -> exists p, isProper m = Ok p /\ (p = false -> exists x, d_isnormal S x = false).
Proof.
  intros G. unfold isProper.
  destruct (gm_eval m (mn_mean S (n_normal (m_normal m))) G (gm_mean _ G)) as (v & Ev).
  destruct (0 <? length (m_beliefs m))%nat; [rewrite Ev|]; cbn [bind]; eexists; (split; [reflexivity|]).
  - intros H. apply andb_false_iff in H. destruct H; eauto.
  - intros H. apply andb_false_iff in H. destruct H as [H|H]; [discriminate|eauto].
Qed.

(** * Graphs *)
Record J (cg : cgraph S) : Prop := {
  j_wf : cgwf S cg;
  j_clusters : forall c, In c (cg_clusters cg) -> gm c;
  j_edges : forall e, In e (cg_edges cg) -> gm (e_belief e)
}.

Lemma pass_ok n cg k f nonly : (k < n)%nat -> J cg /\ length (cg_edges cg) = n ->
  safe (passMessage cg k f nonly) (fun cg' => J cg' /\ length (cg_edges cg') = n).
Proof.
  intros Hk [[W Gc Ge] Hn].
  destruct (nth_error (cg_edges cg) k) as [e|] eqn:Ne; [|apply nth_error_None in Ne; lia].
  pose proof (nth_error_In _ _ Ne) as Hin.
  destruct (cw_edges S cg W e Hin) as (We & i & j & ci & cj & Hf & Hs & Hi & Hj & Ii & Ij).
  assert (P : forall cg', passMessage cg k f nonly = Ok cg' -> cgwf S cg').
  { intros cg' E. destruct (pass_grand S L cg cg' k f nonly HL W E) as [W' _]. exact W'. }
  assert (Q : exists si sj csi csj,
    (if f then e_first e else e_second e) = Z.of_nat si /\ nth_error (cg_clusters cg) si = Some csi /\
    (if f then e_second e else e_first e) = Z.of_nat sj /\ nth_error (cg_clusters cg) sj = Some csj /\
    incl (m_items (e_belief e)) (m_items csi) /\ incl (m_items (e_belief e)) (m_items csj)).
  { destruct f; [exists i, j, ci, cj|exists j, i, cj, ci]; auto 10. }
  destruct Q as (si & sj & csi & csj & Hsi & Nsi & Hsj & Nsj & Isi & Isj).
  destruct (margin_ok csi (m_items (e_belief e)) nonly) as (b & Eb & Gb); auto.
  { apply Gc. eapply nth_error_In; eauto. }
  { apply We. }
  destruct (margin_wf S csi b _ nonly HL (gm_wf _ (Gc _ (nth_error_In _ _ Nsi))) (mwf_nd _ _ We) Isi Eb) as [_ Ib].
  assert (Gj : gm csj) by (apply Gc; eapply nth_error_In; eauto).
  assert (Gm : gm (mixed_mul csj b)). { apply gm_mul; auto. intros x Hx. apply Isj, Ib, Hx. }
  assert (Gd : gm (mixed_div (mixed_mul csj b) (e_belief e))).
  { apply gm_div; auto. rewrite mul_items by apply Gj. exact Isj. }
  destruct (proper_ok _ Gd) as (p & Ep & Hp).
  assert (E : passMessage cg k f nonly = if p then
     Ok (mkCG (upd (cg_clusters cg) (Z.to_nat (Z.of_nat sj)) (mixed_div (mixed_mul csj b) (e_belief e)))
              (upd (cg_edges cg) k (mkEdge (e_first e) (e_second e) b)) (cg_calibrated cg))
     else Throw RuntimeError).
  { unfold passMessage. rewrite (vec_get_Ok _ _ _ Ne). cbn [bind]. rewrite Hsi, Hsj.
    rewrite (zat_Ok _ _ _ Nsi). cbn [bind]. unfold projectClusterOntoEdge. rewrite Eb. cbn [bind].
    rewrite (zat_Ok _ _ _ Nsj). cbn [bind e_belief]. rewrite Ep. reflexivity. }
  rewrite E in *. destruct p; cbn [safe]; auto. split.
  - constructor.
    + apply P. reflexivity.
    + cbn [cg_clusters]. intros c Hc. apply upd_In in Hc. destruct Hc as [->|Hc]; auto.
    + cbn [cg_edges]. intros e' He'. apply upd_In in He'. destruct He' as [->|He']; auto.
  - cbn [cg_edges]. now rewrite upd_length.
Qed.

Lemma cal_ok cg f nonly : J cg -> safe (calibrateInternal cg f nonly) J.
Proof.
  intros H. unfold calibrateInternal.
  assert (G : safe (foldM (fun c k => passMessage c k f nonly)
     (if f then seq 0 (length (cg_edges cg)) else rev (seq 0 (length (cg_edges cg)))) cg)
     (fun cg' => J cg' /\ length (cg_edges cg') = length (cg_edges cg))).
  { apply safe_fold; auto. intros s x Hx Hs. apply pass_ok; auto.
    destruct f; [|apply in_rev in Hx]; apply in_seq in Hx; lia. }
  destruct (foldM _ _ _) as [a|e| |]; cbn [safe] in *; auto. tauto.
Qed.

Lemma subset_ok (mean : list (D S)) its : (forall x, In x its -> (0 <= x < Z.of_nat (length mean))%Z) ->
  exists v, getVectorSubset S mean its = Ok v /\ length v = length its.
Proof.
  intros H. unfold getVectorSubset. induction its as [|x its IH]; cbn [mapM].
  - exists []. auto.
  - assert (Hx : (0 <= x < Z.of_nat (length mean))%Z) by (apply H; now left).
    destruct (Z.ltb_spec x 0); [lia|]. unfold vec_get at 1.
    destruct (nth_error mean (Z.to_nat x)) as [y|] eqn:N; [|apply nth_error_None in N; lia].
    cbn [bind]. destruct IH as (v & Ev & Lv); [intros; apply H; now right|]. rewrite Ev. cbn [bind].
    exists (y :: v). simpl. auto.
Qed.

Lemma mapM_safe {A C} (f : A -> outcome C) (l : list A) : (forall a, In a l -> exists c, f a = Ok c) ->
  exists r, mapM f l = Ok r.
Proof.
  intros H. induction l as [|a l IH]; cbn [mapM]; [eauto|].
  destruct (H a (or_introl eq_refl)) as (c & ->). destruct IH as (r & ->); [intros; apply H; now right|].
  cbn [bind]. eauto.
Qed.

Lemma setnormal_ok cg mean prec : cgwf S cg ->
  (forall c, In c (cg_clusters cg) -> m_fixed c = false /\ forall b, In b (m_beliefs c) -> NoDup (bscope S b) /\ good b) ->
  (forall e, In e (cg_edges cg) -> m_fixed (e_belief e) = false /\ m_beliefs (e_belief e) = []) ->
  (forall m x, In m (cg_clusters cg) \/ In m (map e_belief (cg_edges cg)) -> In x (m_items m) -> (0 <= x < Z.of_nat (length mean))%Z) ->
  (forall c, In c (cg_clusters cg) -> (length (m_items c) <= cap)%nat) ->
  safe (cg_setNormalApprox cg mean prec) J.
Proof.
  intros W Hc He Hr Cap. unfold cg_setNormalApprox.
  destruct (mapM_safe (fun c : mixed => mu <- getVectorSubset S mean (m_items c) ;;
     Ok (setNormalApprox c mu (getSparseMatrixSubset S prec (m_items c)))) (cg_clusters cg)) as (clusters & E1).
  { intros c Hc'. destruct (subset_ok mean (m_items c)) as (v & Ev & _); [intros x; apply Hr; auto|]. rewrite Ev. cbn. eauto. }
  destruct (mapM_safe (fun e : edge S => mu <- getVectorSubset S mean (m_items (e_belief e)) ;;
     Ok (mkEdge (e_first e) (e_second e) (setNormalApprox (e_belief e) mu (getSparseMatrixSubset S prec (m_items (e_belief e)))))) (cg_edges cg)) as (edges & E2).
  { intros c Hc'. destruct (subset_ok mean (m_items (e_belief c))) as (v & Ev & _).
    { intros x. apply Hr. right. apply in_map_iff. eauto. }
    rewrite Ev. cbn. eauto. }
  rewrite E1, E2. cbn [bind].
  pose proof (set_same S cg mean prec clusters edges E1 E2) as S0.
  pose proof (same_cgwf S _ _ S0 W) as W0.
  assert (J0 : J (mkCG clusters edges (cg_calibrated cg))).
  { pose proof (F2_mapM (fun x y : mixed => exists v, getVectorSubset S mean (m_items x) = Ok v /\
      y = setNormalApprox x v (getSparseMatrixSubset S prec (m_items x))) _ _ _ E1) as A1.
    specialize (A1 ltac:(intros x y Exy; cbn beta in Exy; apply bind_Ok in Exy; destruct Exy as (v & Ev & Exy); injection Exy as <-; eauto)).
    pose proof (F2_mapM (fun x y : edge S => exists v, getVectorSubset S mean (m_items (e_belief x)) = Ok v /\
      y = mkEdge (e_first x) (e_second x) (setNormalApprox (e_belief x) v (getSparseMatrixSubset S prec (m_items (e_belief x))))) _ _ _ E2) as A2.
    specialize (A2 ltac:(intros x y Exy; cbn beta in Exy; apply bind_Ok in Exy; destruct Exy as (v & Ev & Exy); injection Exy as <-; eauto)).
    assert (Lv : forall its v, getVectorSubset S mean its = Ok v -> length v = length its).
    { clear. unfold getVectorSubset. induction its as [|x its IH]; intros v E; cbn [mapM] in E.
      - injection E as <-. auto.
      - apply bind_Ok in E. destruct E as (y & _ & E). apply bind_Ok in E. destruct E as (ys & Ey & E). injection E as <-.
        simpl. f_equal. auto. }
    constructor; cbn [cg_clusters cg_edges]; auto.
    - intros c Hin. destruct (F2_In _ _ _ _ A1 Hin) as (c0 & Hc0 & v & Ev & ->). destruct (Hc c0 Hc0) as [Fx Hb].
      constructor.
      + apply (cw_clusters S _ W0). exact Hin.
      + unfold setNormalApprox. rewrite Fx. cbn [m_normal n_given n_normal m_items]. apply (sl_given _ _ Sz); eauto.
        * unfold getSparseMatrixSubset. apply map_length.
        * intros row Hrow. unfold getSparseMatrixSubset in Hrow. apply in_map_iff in Hrow. destruct Hrow as (? & <- & _). apply map_length.
      + unfold setNormalApprox. rewrite Fx. exact Hb.
      + unfold setNormalApprox. rewrite Fx. exact (Cap c0 Hc0).
    - intros e Hin. destruct (F2_In _ _ _ _ A2 Hin) as (e0 & He0 & v & Ev & ->). destruct (He e0 He0) as [Fx Hb].
      cbn [e_belief]. constructor.
      + apply (cw_edges S _ W0 _ Hin).
      + unfold setNormalApprox. rewrite Fx. cbn [m_normal n_given n_normal m_items]. apply (sl_given _ _ Sz); eauto.
        * unfold getSparseMatrixSubset. apply map_length.
        * intros row Hrow. unfold getSparseMatrixSubset in Hrow. apply in_map_iff in Hrow. destruct Hrow as (? & <- & _). apply map_length.
      + unfold setNormalApprox. rewrite Fx. cbn [m_beliefs]. rewrite Hb. intros ? [].
      + unfold setNormalApprox. rewrite Fx. cbn [m_items].
        destruct (cw_edges S _ W e0 He0) as (We & i & j & ci & cj & _ & _ & Hi & _ & Ii & _).
        pose proof (NoDup_incl_length (mwf_nd _ _ We) Ii). pose proof (Cap ci (nth_error_In _ _ Hi)). lia. }
  apply safe_bind with (Q := J); [now apply cal_ok|]. intros cg1 _ J1.
  apply safe_bind with (Q := J); [now apply cal_ok|]. intros cg2 _ [W2 C2 D2].
  cbn [safe]. constructor; cbn [cg_clusters cg_edges].
  - apply (same_cgwf S _ _ (fix_same S cg2) W2).
  - intros c Hin. apply in_map_iff in Hin. destruct Hin as (c0 & <- & Hc0). destruct (C2 _ Hc0) as [A1 A2 A3 A4].
    constructor; [|exact A2|exact A3|exact A4]. destruct A1 as [X1 X2 X3 X4 X5]. constructor; auto.
  - intros e Hin. apply in_map_iff in Hin. destruct Hin as (e0 & <- & He0). destruct (D2 _ He0) as [A1 A2 A3 A4].
    constructor; [|exact A2|exact A3|exact A4]. destruct A1 as [X1 X2 X3 X4 X5]. constructor; auto.
Qed.

Lemma log_ok cg : J cg -> cg_clusters cg <> [] -> exists v, cg_logNormalizingConstant cg = Ok v.
Proof.
  intros [W Gc _] Hne. unfold cg_logNormalizingConstant.
  destruct (nth_error (cg_clusters cg) (length (cg_clusters cg) - 1)) as [m|] eqn:N.
  2: { apply nth_error_None in N. destruct (cg_clusters cg); [congruence|]. simpl in N. lia. }
  assert (Hl : (1 <= length (cg_clusters cg))%nat) by (destruct (cg_clusters cg); [congruence|simpl; lia]).
  replace (Z.of_nat (length (cg_clusters cg)) - 1)%Z with (Z.of_nat (length (cg_clusters cg) - 1)) by lia.
  rewrite (zat_Ok _ _ _ N). cbn [bind]. unfold mixed_logNormalizingConstant.
  assert (G : gm m) by (apply Gc; eapply nth_error_In; eauto).
  destruct (margin_ok m [] false G) as (m' & E & G'); [constructor|intros ? []|].
  rewrite E. cbn [bind]. apply gm_eval; auto.
  destruct (margin_wf S m m' [] false HL (gm_wf _ G)) as [_ I']; auto; [constructor|intros ? []|].
  destruct (m_items m') as [|x l]; auto. exfalso. apply (I' x). now left.
Qed.

Lemma clusters_len (cg cg' : cgraph S) f n : calibrateInternal cg f n = Ok cg' -> length (cg_clusters cg') = length (cg_clusters cg).
Proof.
  unfold calibrateInternal. generalize (if f then seq 0 (length (cg_edges cg)) else rev (seq 0 (length (cg_edges cg)))).
  intros ids. revert cg. induction ids as [|k ids IH]; intros cg E; cbn [foldM] in E.
  - now injection E as <-.
  - apply bind_Ok in E. destruct E as (c1 & E1 & E). rewrite (IH c1 E).
    unfold passMessage in E1. repeat (apply bind_Ok in E1; destruct E1 as (? & _ & E1)).
    match type of E1 with (if ?p then _ else _) = _ => destruct p; [|discriminate] end.
    injection E1 as <-. cbn [cg_clusters]. apply upd_length.
Qed.

Lemma C57_general (fs : list (B S)) cg mean prec : scopes_ok fs -> (forall f, In f fs -> good f) ->
  (forall f x, In f fs -> In x (bscope S f) -> (0 <= x < Z.of_nat (length mean))%Z) ->
  build fs = Ok cg -> (forall c, In c (cg_clusters cg) -> (length (m_items c) <= cap)%nat) ->
  (exists v, computeLogNormalizingConstant cg mean prec = Ok v) \/
  (computeLogNormalizingConstant cg mean prec = Throw RuntimeError /\ exists x, d_isnormal S x = false).
Proof.
  intros Hok Hsh Hr Eb Cap.
  destruct (build_ok S fs Hok) as (cg' & items & es & cls & seps & E' & Sh & Hp).
  rewrite Eb in E'. injection E' as <-.
  pose proof (sh_elim _ _ _ _ _ _ _ Sh) as Hel.
  destruct (build_inv S L fs cg (fun _ => dzero S) Hok Eb) as [W _].
  assert (Hne : cg_clusters cg <> []).
  { intros H. pose proof (sh_nclusters S _ _ _ _ _ _ Sh) as N. rewrite H in N. discriminate. }
  assert (Hitems : forall x, In x items -> (0 <= x < Z.of_nat (length mean))%Z).
  { intros x Hx. apply (sh_items _ _ _ _ _ _ _ Sh) in Hx. destruct Hx as (s & Hs & Hx).
    apply in_map_iff in Hs. destruct Hs as (f & <- & Hf). eauto. }
  assert (G : safe (computeLogNormalizingConstant cg mean prec) (fun _ => True)).
  { unfold computeLogNormalizingConstant.
    apply safe_bind with (Q := fun c => J c /\ length (cg_clusters c) = length (cg_clusters cg)).
    - assert (G : safe (cg_setNormalApprox cg mean prec) J).
      { apply setnormal_ok; auto.
        - intros c Hc. split; [now apply (sh_free _ _ _ _ _ _ _ Sh)|]. intros b Hb.
          assert (Hf : In b fs).
          { destruct (combine_fst_in (m_beliefs c) (m_inv c) b) as (v & Hv); auto.
            { symmetry. apply (cw_clusters S _ W c Hc). }
            assert (Hin : In (b, v) (concat (map factors (cg_clusters cg)))).
            { apply in_concat. exists (factors c). split; auto. now apply in_map. }
            apply (Permutation.Permutation_in _ Hp) in Hin. apply in_map_iff in Hin.
            destruct Hin as (f & E & Hf). injection E as -> _. exact Hf. }
          split; auto.
        - intros e He. apply In_nth_error in He. destruct He as [i Hi].
          destruct (sh_edge_at S _ _ _ _ _ _ Sh i e Hi) as (s & p & _ & _ & ->). auto.
        - intros m x [Hm|Hm] Hx.
          + apply Hitems. apply (elim_incl _ _ _ _ Hel (scopes_graph_wf _ _) (m_items m)); auto.
            rewrite <- (sh_clusters _ _ _ _ _ _ _ Sh). now apply in_map.
          + apply in_map_iff in Hm. destruct Hm as (e & <- & He).
            destruct (cw_edges S _ W e He) as (_ & i & j & ci & cj & _ & _ & Hi & _ & Ii & _).
            apply Hitems. apply (elim_incl _ _ _ _ Hel (scopes_graph_wf _ _) (m_items ci)); auto.
            rewrite <- (sh_clusters _ _ _ _ _ _ _ Sh). apply in_map. eapply nth_error_In; eauto. }
      destruct (cg_setNormalApprox cg mean prec) as [a|e| |] eqn:E; cbn [safe] in *; auto. split; auto.
      unfold cg_setNormalApprox in E.
      apply bind_Ok in E. destruct E as (clusters & E1 & E).
      apply bind_Ok in E. destruct E as (edges & E2 & E).
      apply bind_Ok in E. destruct E as (cg1 & E3 & E).
      apply bind_Ok in E. destruct E as (cg2 & E4 & E). injection E as <-.
      cbn [cg_clusters]. rewrite map_length, (clusters_len _ _ _ _ E4), (clusters_len _ _ _ _ E3). cbn [cg_clusters].
      clear -E1. revert clusters E1. induction (cg_clusters cg) as [|c l IH]; intros r E; cbn [mapM] in E.
      + now injection E as <-.
      + apply bind_Ok in E. destruct E as (? & _ & E). apply bind_Ok in E. destruct E as (? & E1 & E). injection E as <-.
        simpl. f_equal. auto.
    - intros cg1 _ [J1 L1].
      apply safe_bind with (Q := J); [now apply cal_ok|]. intros cg2 E2 J2.
      destruct (log_ok cg2 J2) as (v & Ev).
      { intros H. apply clusters_len in E2. rewrite H, L1 in E2. destruct (cg_clusters cg); [congruence|discriminate]. }
      rewrite Ev. exact I. }
  destruct (computeLogNormalizingConstant cg mean prec) as [v|e| |]; cbn [safe] in G; try tauto; [left; eauto|].
  destruct e; try tauto.
Qed.
End Total.

(** Beliefs with derivatives. *)
Section Shaped.
Variable S : sig.
Hypothesis L : group_laws S.
Hypothesis Sz : normal_sizes S.
Hypothesis HL : scope_law S.
Hypothesis HI : integrates S.
Section Derivs.
Variable sized : nat -> MN S -> Prop.
Lemma gm_derivs m x cap : gm S sized (shaped S) cap m -> length x = length (m_items m) ->
  (exists g, evaluateDerivative m x = Ok g /\ length g = length x) /\
  (exists h, evaluateSecondDerivative m x = Ok h /\ length h = length x /\ forall row, In row h -> length row = length x).
Proof.
  intros G Hl. destruct (as_map S _ x (mwf_nd _ _ (gm_wf _ _ _ _ _ G)) Hl) as (w & <-).
  destruct (entries_mwf S L m (gm_wf _ _ _ _ _ G)) with (w := w) as [(g & E1 & L1 & _) (h & E2 & L2 & L3 & _)].
  { intros p Hp. apply (gm_shaped _ _ _ _ _ G). destruct p as [b v]. now apply in_combine_l in Hp. }
  rewrite map_length. split; [exists g|exists h]; auto.
Qed.
End Derivs.
Lemma mean_laws : size_laws S (fun d n => length (mn_mean S n) = d).
Proof.
  constructor; auto.
  - intros d mean prec H _ _. now rewrite (ns_given S Sz).
  - intros d a b subset H _. now rewrite (ns_mul S Sz).
  - intros d a b subset H _. now rewrite (ns_div S Sz).
  - intros d a subset _. apply (ns_marginal S Sz).
Qed.

Lemma C57_main (fs : list (B S)) cg mean prec : scopes_ok fs -> (forall f, In f fs -> shaped S f) ->
  (forall f x, In f fs -> In x (bscope S f) -> (0 <= x < Z.of_nat (length mean))%Z) ->
  build fs = Ok cg ->
  (exists v, computeLogNormalizingConstant cg mean prec = Ok v) \/
  (computeLogNormalizingConstant cg mean prec = Throw RuntimeError /\ exists x, d_isnormal S x = false).
Proof.
  intros Hok Hsh Hr Eb. apply (C57_general S L _ mean_laws HL (shaped S) (list_max (map (fun c => length (m_items c)) (cg_clusters cg)))) with (fs := fs); auto.
  2: { intros c Hc. pose proof (proj1 (list_max_le (map (fun c => length (m_items c)) (cg_clusters cg)) _) (le_n _)) as F.
       rewrite Forall_forall in F. apply F. now apply (in_map (fun c => length (m_items c))). }
  intros m k items G Hn Hk Hl. apply HI; auto.
  - rewrite (gm_mean _ _ mean_laws _ _ _ G). exact Hl.
  - intros x Hx. rewrite <- Hl in Hx. split; [eapply gm_eval; eauto|eapply gm_derivs; eauto].
Qed.
End Shaped.
