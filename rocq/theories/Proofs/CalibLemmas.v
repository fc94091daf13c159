(** C53: forward and backward pass together make every belief a marginal. *)
From Coq Require Import List ZArith Bool Lia Arith Sorted Permutation.
From Verif Require Import Model.Base Model.Items Model.Mixed Model.ClusterGraph
  Spec.GraphSpec Spec.ElimSpec Spec.BeliefSpec Spec.TreeSpec Spec.IntegralSpec Spec.MessageSpec
  Spec.CalibSpec
  Proofs.ListLemmas Proofs.ItemsLemmas Proofs.ElimLemmas Proofs.MixedLemmas Proofs.BuildLemmas
  Proofs.ClusterMain Proofs.GroupTac Proofs.MessageLemmas Proofs.MessageMain Proofs.ForwardLemmas.
Import ListNotations.

Section Cal.
Variable S : sig.
Variable LI : (D S -> D S) -> D S.
Hypothesis L : group_laws S.
Hypothesis X : exact_integral S LI.
Hypothesis Fu : fubini S LI.
Notation mixed := (mixed S).
Notation add := (dadd S).
Notation sub := (dsub S).

Variables (scopes : list (list Z)) (items es : list Z) (cls seps : list (list Z)).
Hypothesis Hel : elim (scopes_graph scopes items) es cls seps.
Hypothesis Hnd : NoDup items.
Variable F : (Z -> D S) -> D S.
Hypothesis HF : ext S F.
Let Hwf := scopes_graph_wf scopes items.

Definition memb (x : Z) (l : list Z) : bool := existsb (Z.eqb x) l.
Lemma memb_In x l : memb x l = true <-> In x l.
Proof.
  unfold memb. rewrite existsb_exists. split.
  - intros (y & Hy & E). apply Z.eqb_eq in E. now subst.
  - intros H. exists x. split; auto. apply Z.eqb_refl.
Qed.

Lemma NoDup_app_intro {A} (l1 l2 : list A) : NoDup l1 -> NoDup l2 ->
  (forall x, In x l1 -> ~ In x l2) -> NoDup (l1 ++ l2).
Proof.
  intros N1 N2 N3. induction l1 as [|x l IH]; simpl; auto. inversion N1; subst. constructor.
  - rewrite in_app_iff. intros [H|H]; auto. apply (N3 x); simpl; auto.
  - apply IH; auto. intros y Hy. apply N3. now right.
Qed.

Lemma NoDup_firstn {A} (l : list A) n : NoDup l -> NoDup (firstn n l).
Proof.
  intros H. revert n. induction H as [|x l Hx H IH]; intros [|n]; simpl; constructor; auto.
  intros Hin. apply Hx. rewrite <- (firstn_skipn n l). apply in_or_app. now left.
Qed.

(** The marginal on a set of items. *)
Definition outside (A : list Z) : list Z := filter (fun x => negb (memb x A)) items.
Lemma outside_In A x : In x (outside A) <-> In x items /\ ~ In x A.
Proof.
  unfold outside. rewrite filter_In, negb_true_iff. rewrite <- (memb_In x A).
  destruct (memb x A); intuition congruence.
Qed.
Lemma outside_nd A : NoDup (outside A).
Proof. apply NoDup_filter, Hnd. Qed.
Definition marg (A : list Z) (w : Z -> D S) : D S := iterated S LI (outside A) F w.

Lemma marg_order A order : NoDup order -> (forall x, In x order <-> In x items /\ ~ In x A) ->
  forall w, iterated S LI order F w = marg A w.
Proof.
  intros H1 H2 w. unfold marg. apply iterated_perm; auto; [apply X|].
  apply Permutation_NoDup_ext; auto; [apply outside_nd|]. intros x. now rewrite H2, outside_In.
Qed.

Lemma iterated_app o1 o2 G w : iterated S LI (o1 ++ o2) G w = iterated S LI o2 (iterated S LI o1 G) w.
Proof. unfold iterated. now rewrite fold_left_app. Qed.

Lemma marg_same A A' : (forall x, In x items -> In x A <-> In x A') -> forall w, marg A w = marg A' w.
Proof.
  intros H w. symmetry. unfold marg at 1. apply marg_order; [apply outside_nd|].
  intros x. rewrite outside_In. specialize (H x). tauto.
Qed.

(** Integrating a marginal further. *)
Lemma marg_more A A' d : NoDup d -> incl A items -> incl A' A ->
  (forall x, In x d <-> In x A /\ ~ In x A') ->
  forall w, iterated S LI d (marg A) w = marg A' w.
Proof.
  intros Hd HA H1 H2 w. unfold marg at 1. fold (iterated S LI (outside A) F).
  change (fun w0 => iterated S LI (outside A) F w0) with (iterated S LI (outside A) F).
  rewrite <- iterated_app. apply marg_order.
  - apply NoDup_app_intro; auto; [apply outside_nd|]. intros x. rewrite outside_In, H2. tauto.
  - intros x. rewrite in_app_iff, outside_In, H2.
    destruct (in_dec Z.eq_dec x A) as [i|n]; [|specialize (H1 x); tauto].
    specialize (HA x i). tauto.
Qed.

(** Constants come out of iterated integrals. *)
Lemma iterated_shift (c G : (Z -> D S) -> D S) order :
  (forall v w u, In v order -> c (set_item S w v u) = c w) ->
  forall w, iterated S LI order (fun w => add (c w) (G w)) w = add (c w) (iterated S LI order G w).
Proof.
  revert G. induction order as [|v order IH]; intros G Hc w; [reflexivity|].
  unfold iterated. simpl. fold (iterated S LI order (int_out S LI v G)).
  change (iterated S LI order (int_out S LI v (fun w => add (c w) (G w))) w =
          add (c w) (iterated S LI order (int_out S LI v G) w)).
  rewrite <- (IH (int_out S LI v G)) by (intros; apply Hc; now right).
  apply (iterated_ext S LI (ei_ext _ _ X)). intros w'. unfold int_out.
  rewrite <- (ei_shift _ _ X). apply (ei_ext _ _ X). intros u. f_equal. apply Hc. now left.
Qed.

(** ** Shape of a cluster graph during any run *)
Record st (cg : cgraph S) : Prop := {
  s_items : map m_items (cg_clusters cg) = cls;
  s_wf : forall c, In c (cg_clusters cg) -> mwf c;
  s_ne : length (cg_edges cg) = length seps;
  s_edge : forall i s, nth_error seps i = Some s ->
    exists p eb, nth_error (cg_edges cg) i = Some (mkEdge (Z.of_nat i) (Z.of_nat p) eb) /\
      first_containing cls i s p /\ mwf eb /\ (forall x, In x (m_items eb) <-> In x s)
}.

Lemma same_st cg cg' : same_cg S cg cg' -> st cg -> st cg'.
Proof.
  intros [A B] H. split.
  - rewrite <- (s_items _ H). eapply F2_map; [exact A|]. intros x y (E & _). exact E.
  - intros c Hc. destruct (F2_In _ _ _ _ A Hc) as (c0 & Hc0 & (_ & _ & Hw)). apply Hw, H, Hc0.
  - rewrite <- (s_ne _ H). symmetry. clear -B. induction B; simpl; auto.
  - intros i s Hi. destruct (s_edge _ H i s Hi) as (p & eb & He & Hfc & We & Ie).
    destruct (F2_nth _ _ _ _ _ B He) as ([f0 s0 b0] & He' & (A1 & A2 & (A3 & A4 & A5))).
    simpl in *. subst f0 s0. exists p, b0. split; auto. split; auto. split; auto.
    intros x. rewrite A3. apply Ie.
Qed.

Lemma st_cl cg k c : st cg -> nth_error cls k = Some c ->
  exists m, nth_error (cg_clusters cg) k = Some m /\ m_items m = c /\ mwf m.
Proof.
  intros H Hk. destruct (cl_nth S cls cg k c (s_items _ H) Hk) as (m & Hm & Im).
  exists m. split; auto. split; auto. apply (s_wf _ H). eapply nth_error_In; eauto.
Qed.

Lemma cls_nd i c : nth_error cls i = Some c -> incl c items.
Proof. intros H. apply (elim_incl _ _ _ _ Hel Hwf). eapply nth_error_In; eauto. Qed.

Lemma sep_at_k k s : nth_error seps k = Some s -> exists e c, nth_error es k = Some e /\
  nth_error cls k = Some c /\ (forall x, In x c <-> x = e \/ In x s) /\ ~ In e s /\ NoDup s /\
  (forall j c', (k < j)%nat -> nth_error cls j = Some c' -> ~ In e c').
Proof.
  intros Hs. destruct (elim_lengths Hel) as [HL1 HL2].
  destruct (nth_error es k) as [e|] eqn:Ee.
  - destruct (elim_cluster _ _ _ _ Hel Hwf k e s Ee Hs) as (c & H1 & H2 & H3 & H4 & H5).
    exists e, c. auto 8.
  - apply nth_error_None in Ee. assert (k < length seps)%nat by (apply nth_error_Some; congruence). lia.
Qed.

(** ** One message *)
Record passed (cg cg' : cgraph S) (k : nat) (fw nonly : bool) (s : list Z) (p : nat)
  (eb ci cj b cj' : mixed) : Prop := {
  p_edge : nth_error (cg_edges cg) k = Some (mkEdge (Z.of_nat k) (Z.of_nat p) eb);
  p_first : first_containing cls k s p;
  p_eb : mwf eb;
  p_ebi : forall x, In x (m_items eb) <-> In x s;
  p_ci : nth_error (cg_clusters cg) (if fw then k else p) = Some ci;
  p_cj : nth_error (cg_clusters cg) (if fw then p else k) = Some cj;
  p_cl : cg_clusters cg' = upd (cg_clusters cg) (if fw then p else k) cj';
  p_ed : cg_edges cg' = upd (cg_edges cg) k (mkEdge (Z.of_nat k) (Z.of_nat p) b);
  p_cal : cg_calibrated cg' = cg_calibrated cg;
  p_b : mwf b;
  p_bi : forall x, In x (m_items b) <-> In x s;
  p_wj : mwf cj';
  p_ij : m_items cj' = m_items cj;
  p_sci : incl s (m_items ci);
  p_scj : incl s (m_items cj);
  p_ev : forall w, ev cj' w = add (ev cj w) (sub (ev b w) (ev eb w));
  p_bev : nonly = false -> exists d, NoDup d /\ (forall x, In x d <-> In x (m_items ci) /\ ~ In x s) /\
    forall w, ev b w = iterated S LI d (ev ci) w
}.

Lemma pass_st cg cg' k fw nonly : st cg -> passMessage cg k fw nonly = Ok cg' ->
  st cg' /\ exists s p eb ci cj b cj', nth_error seps k = Some s /\ passed cg cg' k fw nonly s p eb ci cj b cj'.
Proof.
  intros H E. unfold passMessage in E. apply bind_Ok in E. destruct E as (e & Ee & E).
  unfold vec_get in Ee. destruct (nth_error (cg_edges cg) k) as [e'|] eqn:En; [|discriminate].
  injection Ee as ->.
  assert (Hk : (k < length seps)%nat).
  { rewrite <- (s_ne _ H). apply nth_error_Some. congruence. }
  destruct (nth_error seps k) as [s|] eqn:Es; [|apply nth_error_None in Es; lia].
  destruct (s_edge _ H k s Es) as (p & eb & Ne & Hfc & We & Ie).
  rewrite En in Ne. injection Ne as ->. cbn [e_first e_second e_belief] in E.
  destruct (sep_at_k k s Es) as (x0 & c & Hx0 & Hc & Hcin & Hx0s & Hnds & Hlater).
  pose proof Hfc as (Hkp & (cp & Hcp & Hscp) & _).
  destruct (st_cl cg k c H Hc) as (ck & Nk & Ik & Wk).
  destruct (st_cl cg p cp H Hcp) as (mp & Np & Ip & Wp).
  set (i := if fw then k else p). set (j := if fw then p else k).
  assert (E1 : (if fw then Z.of_nat k else Z.of_nat p) = Z.of_nat i) by (unfold i; destruct fw; auto).
  assert (E2 : (if fw then Z.of_nat p else Z.of_nat k) = Z.of_nat j) by (unfold j; destruct fw; auto).
  set (ci := if fw then ck else mp). set (cj := if fw then mp else ck).
  assert (Ni : nth_error (cg_clusters cg) i = Some ci) by (unfold i, ci; destruct fw; auto).
  assert (Nj : nth_error (cg_clusters cg) j = Some cj) by (unfold j, cj; destruct fw; auto).
  assert (Sk : incl s (m_items ck)) by (rewrite Ik; intros x Hx; apply Hcin; auto).
  assert (Sp : incl s (m_items mp)) by (now rewrite Ip).
  assert (Si : incl s (m_items ci)) by (unfold ci; destruct fw; auto).
  assert (Sj : incl s (m_items cj)) by (unfold cj; destruct fw; auto).
  assert (Wi : mwf ci) by (unfold ci; destruct fw; auto).
  assert (Wj : mwf cj) by (unfold cj; destruct fw; auto).
  rewrite E1, E2, (zat_Ok _ _ _ Ni), (zat_Ok _ _ _ Nj) in E. cbn [bind] in E.
  apply bind_Ok in E. destruct E as (e1 & Ep & E).
  unfold projectClusterOntoEdge in Ep. cbn [e_belief e_first e_second] in Ep.
  apply bind_Ok in Ep. destruct Ep as (b & Eb & Ep).
  injection Ep as <-. cbn [bind e_belief] in E.
  apply bind_Ok in E. destruct E as (proper & _ & E). destruct proper; [|discriminate].
  injection E as <-. rewrite Nat2Z.id.
  assert (Sei : incl (m_items eb) (m_items ci)) by (intros x Hx; apply Si, Ie, Hx).
  destruct (margin_wf S ci b (m_items eb) nonly (X_scope S LI X) Wi (mwf_nd _ _ We) Sei Eb) as [Wb Ib].
  assert (Ib' : forall x, In x (m_items b) <-> In x s) by (intros x; now rewrite Ib, Ie).
  set (cj' := mixed_div (mixed_mul cj b) eb) in *.
  assert (Wm : mwf (mixed_mul cj b)) by (apply mwf_mul; auto; intros x Hx; apply Sj, Ib', Hx).
  assert (Im : m_items (mixed_mul cj b) = m_items cj) by now apply mul_items.
  assert (Wj' : mwf cj') by (apply mwf_div; auto; rewrite Im; intros x Hx; apply Sj, Ie, Hx).
  assert (Ij : m_items cj' = m_items cj) by (unfold cj'; rewrite div_items by auto; auto).
  split.
  - split; simpl.
    + rewrite upd_map, Ij, upd_same; [apply H|]. now apply map_nth_error.
    + intros c' Hc'. apply upd_In in Hc'. destruct Hc' as [->|Hc']; auto. now apply (s_wf _ H).
    + rewrite upd_length. apply H.
    + intros n s' Hs'. destruct (Nat.eq_dec k n) as [<-|Hne].
      * assert (s' = s) by congruence. subst s'. exists p, b. split; [|auto].
        apply nth_error_upd_eq. rewrite (s_ne _ H). exact Hk.
      * rewrite nth_error_upd_neq by auto. apply (s_edge _ H); auto.
  - exists s, p, eb, ci, cj, b, cj'. split; auto. split; auto.
    + intros w. unfold cj'. rewrite ev_div, ev_mul by auto. dgroup L.
    + intros ->. exists (findItemsDifference (m_items ci) (m_items eb)). split; [|split].
      * apply findItemsDifference_NoDup, Wi.
      * intros x. rewrite findItemsDifference_In, Ie. tauto.
      * intros w. unfold margin in Eb.
        apply (integrate_fold_ev S LI X L) with (4 := Eb); auto.
        -- apply findItemsDifference_NoDup, Wi.
        -- intros x Hx. apply findItemsDifference_In in Hx. tauto.
Qed.

(** A belief does not look at items outside its own. *)
Lemma ev_set (m : mixed) v w u : mwf m -> ~ In v (m_items m) -> ev m (set_item S w v u) = ev m w.
Proof.
  intros Hm Hv. apply (ev_local S L); auto. intros x Hx. unfold set_item.
  destruct (Z.eqb_spec x v); auto. subst. tauto.
Qed.

(** ** The forward pass *)
Definition T (k : nat) (w : Z -> D S) : D S := iterated S LI (firstn k es) F w.

Lemma firstn_snoc {A} (l : list A) k e : nth_error l k = Some e -> firstn (k + 1) l = firstn k l ++ [e].
Proof.
  revert k. induction l as [|x l IH]; intros [|k] H; simpl in *; try discriminate.
  - now injection H as ->.
  - f_equal. now apply IH.
Qed.

Lemma T_step k e : nth_error es k = Some e -> forall w, T (k + 1) w = LI (fun u => T k (set_item S w e u)).
Proof. intros He w. unfold T. rewrite (firstn_snoc _ _ _ He), iterated_app. reflexivity. Qed.

(** Clusters minus separators from position k on. *)
Definition tail (k : nat) (cg : cgraph S) (w : Z -> D S) : D S :=
  sub (dsumS S (map (fun c => ev c w) (skipn k (cg_clusters cg))))
      (dsumS S (map (fun e => ev (e_belief e) w) (skipn k (cg_edges cg)))).

Definition link (cg : cgraph S) (k : nat) : Prop :=
  forall ck e, nth_error (cg_clusters cg) k = Some ck -> nth_error (cg_edges cg) k = Some e ->
  forall w, add (T k w) (ev (e_belief e) w) = add (ev ck w) (T (k + 1) w).

Lemma sumS_cons a (l : list (D S)) : dsumS S (a :: l) = add a (dsumS S l).
Proof. reflexivity. Qed.

Lemma fwd_step2 k cg cg' : st cg -> (forall w, tail k cg w = T k w) ->
  (forall i, (i < k)%nat -> link cg i) -> passMessage cg k true false = Ok cg' ->
  st cg' /\ (forall w, tail (k + 1) cg' w = T (k + 1) w) /\ (forall i, (i < k + 1)%nat -> link cg' i).
Proof.
  intros H HT HL E. destruct (pass_st cg cg' k true false H E) as (H' & s & p & eb & ci & cj & b & cj' & Hs & P).
  split; auto.
  destruct (sep_at_k k s Hs) as (e & c & He & Hc & Hcin & Hes & Hnds & Hlater).
  destruct P as [Pe (Hkp & Hex & Hno) Web Ieb Nci Ncj Ecl Eed _ Wb Ib Wj Ij Sci Scj Hev Hbev].
  destruct (st_cl cg k c H Hc) as (ck & Nk & Ik & Wk). rewrite Nk in Nci. injection Nci as <-.
  destruct (Hbev eq_refl) as (d & Ndd & Hd & Hb).
  assert (Hb' : forall w, ev b w = LI (fun u => ev ck (set_item S w e u))).
  { intros w. rewrite Hb. assert (d = [e]) as ->; [|reflexivity].
    assert (Hi : forall x, In x d <-> x = e).
    { intros x. rewrite Hd, Ik, Hcin. split; [tauto|]. intros ->. tauto. }
    destruct d as [|x [|y l]].
    - exfalso. apply (proj2 (Hi e)). auto.
    - f_equal. apply Hi. now left.
    - exfalso. inversion Ndd as [|? ? Hn _]; subst. apply Hn.
      assert (x = e) by (apply Hi; now left). assert (y = e) by (apply Hi; right; now left).
      subst. now left. }
  (* the rest of the tail at step k *)
  set (R := fun w => sub (dsumS S (map (fun c => ev c w) (skipn (k + 1) (cg_clusters cg))))
      (add (ev eb w) (dsumS S (map (fun e => ev (e_belief e) w) (skipn (k + 1) (cg_edges cg)))))).
  assert (T0 : forall w, T k w = add (R w) (ev ck w)).
  { intros w. rewrite <- HT. unfold tail. rewrite (skipn_nth _ _ _ Nk), (skipn_nth _ _ _ Pe).
    cbn [map e_belief]. rewrite !sumS_cons. unfold R. dgroup L. }
  assert (T1 : forall w, tail (k + 1) cg' w = add (R w) (ev b w)).
  { intros w. unfold tail. rewrite Ecl, Eed. rewrite skipn_upd by lia.
    assert (Np' : nth_error (skipn (k + 1) (cg_clusters cg)) (p - (k + 1)) = Some cj).
    { rewrite nth_error_skipn'. now replace (k + 1 + (p - (k + 1)))%nat with p by lia. }
    pose proof (sum_upd S L (fun c => ev c w) _ _ cj' cj Np') as Hu. simpl in Hu. rewrite Hev in Hu.
    assert (Se : skipn (k + 1) (upd (cg_edges cg) k (mkEdge (Z.of_nat k) (Z.of_nat p) b)) =
                 skipn (k + 1) (cg_edges cg)).
    { generalize (cg_edges cg) (mkEdge (Z.of_nat k) (Z.of_nat p) b). clear. intros l x.
      revert l. induction k as [|k' IH]; intros [|y l]; simpl; auto. }
    rewrite Se. unfold R. apply (d_move S L _ _ _ _ Hu). dgroup L. }
  assert (HR : forall w u, R (set_item S w e u) = R w).
  { intros w u. unfold R. f_equal; [|f_equal].
    - f_equal. apply map_ext_in. intros m Hm. apply ev_set.
      + apply (s_wf _ H). rewrite <- (firstn_skipn (k + 1) (cg_clusters cg)). apply in_or_app. now right.
      + intros Hin. apply In_nth_error in Hm. destruct Hm as [n Hn]. rewrite nth_error_skipn' in Hn.
        apply (Hlater (k + 1 + n)%nat (m_items m)); auto; [lia|].
        rewrite <- (s_items _ H). now apply map_nth_error.
    - apply ev_set; auto. rewrite Ieb. exact Hes.
    - f_equal. apply map_ext_in. intros m Hm. apply In_nth_error in Hm. destruct Hm as [n Hn].
      rewrite nth_error_skipn' in Hn. set (i := (k + 1 + n)%nat) in *.
      assert (Hi : (i < length seps)%nat).
      { rewrite <- (s_ne _ H). apply nth_error_Some. congruence. }
      destruct (nth_error seps i) as [si|] eqn:Esi; [|apply nth_error_None in Esi; lia].
      destruct (s_edge _ H i si Esi) as (pi & ei & Ni & _ & Wi & Ii). rewrite Ni in Hn. injection Hn as <-.
      simpl. apply ev_set; auto. rewrite Ii. intros Hin.
      destruct (sep_at_k i si Esi) as (e2 & c2 & _ & Hc2 & Hc2in & _).
      apply (Hlater i c2); auto; [unfold i; lia|]. apply Hc2in. now right. }
  assert (TT : forall w, T (k + 1) w = add (R w) (ev b w)).
  { intros w. rewrite (T_step k e He), Hb', <- (ei_shift _ _ X). apply (ei_ext _ _ X).
    intros u. now rewrite T0, HR. }
  split.
  - intros w. now rewrite T1, TT.
  - intros i Hi. destruct (Nat.eq_dec i k) as [->|Hne].
    + intros ck' e' Nk' Ne' w. rewrite Ecl, nth_error_upd_neq in Nk' by lia.
      rewrite Nk in Nk'. injection Nk' as <-.
      rewrite Eed, nth_error_upd_eq in Ne' by (apply nth_error_Some; congruence).
      injection Ne' as <-. simpl. rewrite T0, TT. dgroup L.
    + intros ck' e' Nk' Ne' w. rewrite Ecl, nth_error_upd_neq in Nk' by lia.
      rewrite Eed, nth_error_upd_neq in Ne' by lia. apply (HL i); auto. lia.
Qed.

Lemma fwd_all : forall n k cg cg', (k + n = length seps)%nat -> st cg ->
  (forall w, tail k cg w = T k w) -> (forall i, (i < k)%nat -> link cg i) ->
  foldM (fun c k => passMessage c k true false) (seq k n) cg = Ok cg' ->
  st cg' /\ (forall w, tail (length seps) cg' w = T (length seps) w) /\
  (forall i, (i < length seps)%nat -> link cg' i).
Proof.
  induction n as [|n IH]; intros k cg cg' Hk H HT HL E; simpl in E.
  - injection E as <-. rewrite Nat.add_0_r in Hk. subst k. auto.
  - apply bind_Ok in E. destruct E as (cg1 & E1 & E).
    destruct (fwd_step2 k cg cg1 H HT HL E1) as (H1 & HT1 & HL1).
    replace (Datatypes.S k) with (k + 1)%nat in E by lia.
    apply (IH (k + 1)%nat cg1 cg'); auto. lia.
Qed.

(** The state after a forward pass. *)
Lemma forward_st cg cg' : st cg -> (forall w, grand S cg w = F w) -> calibrateForward cg = Ok cg' ->
  st cg' /\ (forall i, (i < length seps)%nat -> link cg' i) /\
  exists cl ml, nth_error cls (length seps) = Some cl /\
    nth_error (cg_clusters cg') (length seps) = Some ml /\ m_items ml = cl /\ mwf ml /\
    forall w, ev ml w = marg cl w.
Proof.
  intros H HG E. unfold calibrateForward, calibrateInternal in E. rewrite (s_ne _ H) in E.
  destruct (fwd_all (length seps) 0 cg cg' eq_refl H) as (H' & HT & HL); auto.
  { intros i Hi. lia. }
  split; auto. split; auto.
  destruct (elim_lengths Hel) as [HL1 HL2].
  destruct (elim_last _ _ _ _ Hel Hwf) as (cl & Hcl & Hcov & Hdis).
  destruct (st_cl cg' _ _ H' Hcl) as (ml & Nl & Il & Wl).
  exists cl, ml. split; auto. split; auto. split; auto. split; auto.
  intros w.
  assert (Hlen : length (cg_clusters cg') = Datatypes.S (length seps)).
  { rewrite <- (map_length m_items), (s_items _ H'). auto. }
  specialize (HT w). unfold tail in HT. rewrite (skipn_nth _ _ _ Nl) in HT.
  rewrite (skipn_all2 (n := length seps + 1)) in HT by lia.
  rewrite (skipn_all2 (n := length seps)) in HT by (rewrite (s_ne _ H'); lia).
  cbn [map] in HT. rewrite sumS_cons in HT.
  transitivity (T (length seps) w).
  - rewrite <- HT. unfold dsumS. simpl. dgroup L.
  - unfold T. rewrite <- HL2, firstn_all. apply marg_order.
    + eapply elim_es_NoDup; eauto.
    + intros x. split.
      * intros Hx. split; [eapply (elim_es_In _ _ _ _ Hel); eauto|]. intros Hc. now apply Hdis in Hc.
      * intros [Hx Hc]. destruct (Hcov x Hx); auto. tauto.
Qed.

(** ** The backward pass *)
Definition cl_ok (cg : cgraph S) (i : nat) : Prop :=
  forall c, nth_error (cg_clusters cg) i = Some c -> forall w, ev c w = marg (m_items c) w.
Definition ed_ok (cg : cgraph S) (i : nat) : Prop :=
  forall e, nth_error (cg_edges cg) i = Some e -> forall w, ev (e_belief e) w = marg (m_items (e_belief e)) w.

Lemma es_later i j x : nth_error es i = Some x -> (i < j)%nat -> forall c, nth_error cls j = Some c -> ~ In x c.
Proof.
  intros Hi Hij c Hc. destruct (elim_lengths Hel) as [HL1 HL2].
  assert (i < length es)%nat by (apply nth_error_Some; congruence).
  destruct (nth_error seps i) as [s|] eqn:Es; [|apply nth_error_None in Es; lia].
  destruct (sep_at_k i s Es) as (e & c0 & He & _ & _ & _ & _ & Hl). rewrite Hi in He. injection He as <-.
  exact (Hl j c Hij Hc).
Qed.

(** From the link to the marginal. *)
Lemma link_marg cg k s c ck e : st cg -> nth_error seps k = Some s -> nth_error cls k = Some c ->
  nth_error (cg_clusters cg) k = Some ck -> nth_error (cg_edges cg) k = Some e -> link cg k ->
  forall w, marg c w = add (ev ck w) (sub (marg s w) (ev (e_belief e) w)).
Proof.
  intros H Hs Hc Nk Ne Hl w.
  destruct (sep_at_k k s Hs) as (x & c' & Hx & Hc' & Hcin & Hxs & Hnds & Hlater).
  rewrite Hc in Hc'. injection Hc' as <-.
  destruct (s_edge _ H k s Hs) as (p & eb & Ne' & _ & Web & Ieb). rewrite Ne in Ne'. injection Ne' as ->.
  destruct (st_cl cg k c H Hc) as (ck' & Nk' & Ik & Wk). rewrite Nk in Nk'. injection Nk' as <-.
  cbn [e_belief].
  assert (Nes : NoDup es) by (eapply elim_es_NoDup; eauto).
  assert (Fin : forall y n, In y (firstn n es) -> In y items).
  { intros y n Hy. apply (elim_es_In _ _ _ _ Hel y). rewrite <- (firstn_skipn n es). apply in_or_app. now left. }
  assert (Fc : forall y, In y (firstn k es) -> ~ In y c).
  { intros y Hy. apply In_nth_error in Hy. destruct Hy as [n Hn].
    assert (Hnk : (n < k)%nat).
    { assert (n < length (firstn k es))%nat by (apply nth_error_Some; congruence).
      rewrite firstn_length in *. lia. }
    apply (es_later n k y); auto.
    rewrite <- Hn. symmetry. clear -Hnk. revert es n Hnk.
    induction k as [|k IH]; intros [|z l] [|n] H; simpl; auto; try lia. apply IH. lia. }
  set (rest := outside (firstn k es ++ c)).
  assert (Hrest : forall y, In y rest <-> In y items /\ ~ In y (firstn k es) /\ ~ In y c).
  { intros y. unfold rest. rewrite outside_In, in_app_iff. tauto. }
  assert (M1 : marg c w = iterated S LI rest (T k) w).
  { unfold T. change (fun w0 => iterated S LI (firstn k es) F w0) with (iterated S LI (firstn k es) F).
    rewrite <- iterated_app. symmetry. apply marg_order.
    - apply NoDup_app_intro; [|apply outside_nd|].
      + now apply NoDup_firstn.
      + intros y. rewrite Hrest. tauto.
    - intros y. rewrite in_app_iff, Hrest. specialize (Fin y k). specialize (Fc y).
      destruct (in_dec Z.eq_dec y (firstn k es)); tauto. }
  assert (M2 : marg s w = iterated S LI rest (T (k + 1)) w).
  { unfold T. change (fun w0 => iterated S LI (firstn (k + 1) es) F w0) with (iterated S LI (firstn (k + 1) es) F).
    rewrite <- iterated_app. symmetry. rewrite (firstn_snoc _ _ _ Hx). apply marg_order.
    - apply NoDup_app_intro; [|apply outside_nd|].
      + rewrite <- (firstn_snoc _ _ _ Hx). now apply NoDup_firstn.
      + intros y. rewrite in_app_iff, Hrest. intros [Hy|[<-|[]]]; [tauto|].
        intros (_ & _ & Hn). apply Hn, Hcin. now left.
    - intros y. rewrite !in_app_iff, Hrest. simpl.
      pose proof (Fin y k). pose proof (Fc y) as Fy. rewrite Hcin in Fy |- *.
      assert (Hxi : In x items) by (apply (elim_es_In _ _ _ _ Hel); eapply nth_error_In; eauto).
      destruct (in_dec Z.eq_dec y (firstn k es)).
      + split; [|tauto]. intros _. split; tauto.
      + destruct (Z.eq_dec y x) as [->|Hne]; [tauto|]. split; [|tauto].
        intros [[|[|[]]]|]; try tauto. congruence. }
  rewrite M1, M2.
  set (cc := fun w => sub (ev ck w) (ev eb w)).
  transitivity (iterated S LI rest (fun w => add (cc w) (T (k + 1) w)) w).
  - apply (iterated_ext S LI (ei_ext _ _ X)). intros w'. specialize (Hl ck _ Nk Ne w'). cbn [e_belief] in Hl.
    unfold cc. apply (d_move S L _ _ _ _ Hl). dgroup L.
  - rewrite iterated_shift.
    + unfold cc. dgroup L.
    + intros v w' u Hv. apply Hrest in Hv. destruct Hv as (_ & _ & Hv). unfold cc. f_equal; apply ev_set; auto.
      * now rewrite Ik.
      * rewrite Ieb. intros Hin. apply Hv, Hcin. now right.
Qed.

Lemma marg_items_perm A A' w : (forall x, In x A <-> In x A') -> marg A w = marg A' w.
Proof. intros H. apply marg_same. intros x _. apply H. Qed.

Lemma bwd_step k cg cg' : st cg -> (forall i, (i <= k)%nat -> link cg i) ->
  (forall i, (k < i)%nat -> cl_ok cg i) -> (forall i, (k < i)%nat -> ed_ok cg i) ->
  passMessage cg k false false = Ok cg' ->
  st cg' /\ (forall i, (i < k)%nat -> link cg' i) /\
  (forall i, (k <= i)%nat -> cl_ok cg' i) /\ (forall i, (k <= i)%nat -> ed_ok cg' i).
Proof.
  intros H HL HC HE E.
  destruct (pass_st cg cg' k false false H E) as (H' & s & p & eb & ci & cj & b & cj' & Hs & P).
  destruct (sep_at_k k s Hs) as (e & c & He & Hc & Hcin & Hes & Hnds & Hlater).
  destruct P as [Pe (Hkp & (cp & Hcp & Hscp) & Hno) Web Ieb Nci Ncj Ecl Eed _ Wb Ib Wj Ij Sci Scj Hev Hbev].
  destruct (st_cl cg k c H Hc) as (ck & Nk & Ik & Wk). rewrite Nk in Ncj. injection Ncj as <-.
  destruct (st_cl cg p cp H Hcp) as (mp & Np & Ip & Wp). rewrite Np in Nci. injection Nci as <-.
  destruct (Hbev eq_refl) as (d & Ndd & Hd & Hb).
  assert (Hb' : forall w, ev b w = marg s w).
  { intros w. rewrite Hb. rewrite (iterated_ext S LI (ei_ext _ _ X) d _ (marg (m_items mp))).
    - apply marg_more; auto. rewrite Ip. eapply cls_nd; eauto.
    - intros w'. apply (HC p); auto. }
  assert (Hc' : forall w, ev cj' w = marg (m_items cj') w).
  { intros w. rewrite Hev, Ij, Ik. rewrite (link_marg cg k s c ck _ H Hs Hc Nk Pe (HL k (le_n k)) w).
    cbn [e_belief]. now rewrite Hb'. }
  split; auto. split; [|split].
  - intros i Hi ck' e' N1 N2. rewrite Ecl, nth_error_upd_neq in N1 by lia.
    rewrite Eed, nth_error_upd_neq in N2 by lia. apply (HL i); auto. lia.
  - intros i Hi c1 N1. rewrite Ecl in N1. destruct (Nat.eq_dec k i) as [<-|Hne].
    + rewrite nth_error_upd_eq in N1 by (apply nth_error_Some; congruence). injection N1 as <-. auto.
    + rewrite nth_error_upd_neq in N1 by auto. apply (HC i); auto. lia.
  - intros i Hi e1 N1. rewrite Eed in N1. destruct (Nat.eq_dec k i) as [<-|Hne].
    + rewrite nth_error_upd_eq in N1 by (apply nth_error_Some; congruence). injection N1 as <-.
      intros w. cbn [e_belief]. rewrite Hb'. apply marg_items_perm. intros x. now rewrite Ib.
    + rewrite nth_error_upd_neq in N1 by auto. apply (HE i); auto. lia.
Qed.

Lemma bwd_all : forall k cg cg', (k <= length seps)%nat -> st cg -> (forall i, (i < k)%nat -> link cg i) ->
  (forall i, (k <= i)%nat -> cl_ok cg i) -> (forall i, (k <= i)%nat -> ed_ok cg i) ->
  foldM (fun c k => passMessage c k false false) (rev (seq 0 k)) cg = Ok cg' ->
  st cg' /\ (forall i, cl_ok cg' i) /\ (forall i, ed_ok cg' i).
Proof.
  induction k as [|k IH]; intros cg cg' Hk H HL HC HE E.
  - simpl in E. injection E as <-. split; auto. split; intros i; [apply HC|apply HE]; lia.
  - rewrite seq_S, rev_app_distr in E. simpl in E. apply bind_Ok in E. destruct E as (cg1 & E1 & E).
    destruct (bwd_step k cg cg1 H) as (H1 & HL1 & HC1 & HE1); auto.
    { intros i Hi. apply HL. lia. }
    apply (IH cg1 cg'); auto. lia.
Qed.

Definition calibd (cg : cgraph S) : Prop := (forall i, cl_ok cg i) /\ (forall i, ed_ok cg i).

Lemma calibrate_st cg cg' : st cg -> (forall w, grand S cg w = F w) -> calibrate cg = Ok cg' ->
  st cg' /\ calibd cg' /\ cg_calibrated cg' = true.
Proof.
  intros H HG E. unfold calibrate in E. apply bind_Ok in E. destruct E as (cg1 & E1 & E).
  apply bind_Ok in E. destruct E as (cg2 & E2 & E). injection E as <-.
  destruct (forward_st cg cg1 H HG E1) as (H1 & HL & cl & ml & Hcl & Nl & Il & Wl & Hml).
  unfold calibrateBackward, calibrateInternal in E2. rewrite (s_ne _ H1) in E2.
  destruct (elim_lengths Hel) as [HL1 HL2].
  destruct (bwd_all (length seps) cg1 cg2 (le_n _) H1) as (H2 & HC & HE); auto.
  - intros i Hi c Nc w. destruct (Nat.eq_dec i (length seps)) as [->|Hne].
    + rewrite Nl in Nc. injection Nc as <-. rewrite Il. apply Hml.
    + assert (i < length (cg_clusters cg1))%nat by (apply nth_error_Some; congruence).
      assert (length (cg_clusters cg1) = Datatypes.S (length seps)).
      { rewrite <- (map_length m_items), (s_items _ H1). auto. }
      lia.
  - intros i Hi e Ne. assert (i < length (cg_edges cg1))%nat by (apply nth_error_Some; congruence).
    rewrite (s_ne _ H1) in *. lia.
  - split; [|split; auto].
    + destruct H2. split; simpl; auto.
    + split; intros i; [apply HC|apply HE].
Qed.

(** A further exact message changes no value. *)
Lemma pass_calibd cg cg' k fw : st cg -> calibd cg -> passMessage cg k fw false = Ok cg' -> calibd cg'.
Proof.
  intros H [HC HE] E.
  destruct (pass_st cg cg' k fw false H E) as (H' & s & p & eb & ci & cj & b & cj' & Hs & P).
  destruct P as [Pe _ Web Ieb Nci Ncj Ecl Eed _ Wb Ib Wj Ij Sci Scj Hev Hbev].
  destruct (Hbev eq_refl) as (d & Ndd & Hd & Hb).
  assert (Hci : incl (m_items ci) items).
  { eapply cls_nd. rewrite <- (s_items _ H). apply map_nth_error. exact Nci. }
  assert (Hb' : forall w, ev b w = marg s w).
  { intros w. rewrite Hb. rewrite (iterated_ext S LI (ei_ext _ _ X) d _ (marg (m_items ci))).
    - apply marg_more; auto.
    - intros w'. eapply HC; eauto. }
  assert (He : forall w, ev eb w = marg s w).
  { intros w. rewrite (HE k _ Pe). cbn [e_belief]. apply marg_items_perm. exact Ieb. }
  split; intros i.
  - intros c1 N1 w. rewrite Ecl in N1. destruct (Nat.eq_dec (if fw then p else k) i) as [<-|Hne].
    + rewrite nth_error_upd_eq in N1 by (apply nth_error_Some; congruence). injection N1 as <-.
      rewrite Hev, Ij, Hb', He, <- (HC _ _ Ncj). dgroup L.
    + rewrite nth_error_upd_neq in N1 by auto. eapply HC; eauto.
  - intros e1 N1 w. rewrite Eed in N1. destruct (Nat.eq_dec k i) as [<-|Hne].
    + rewrite nth_error_upd_eq in N1 by (apply nth_error_Some; congruence). injection N1 as <-.
      cbn [e_belief]. rewrite Hb'. apply marg_items_perm. intros x. now rewrite Ib.
    + rewrite nth_error_upd_neq in N1 by auto. eapply HE; eauto.
Qed.
End Cal.
