(** Marginals and messages. *)
From Coq Require Import List ZArith Bool Lia Arith Sorted Permutation.
From Verif Require Import Model.Base Model.Items Model.Mixed Model.ClusterGraph
  Spec.GraphSpec Spec.ElimSpec Spec.BeliefSpec Spec.TreeSpec Spec.IntegralSpec
  Proofs.ListLemmas Proofs.ItemsLemmas Proofs.ElimLemmas Proofs.MixedLemmas Proofs.BuildLemmas
  Proofs.ClusterMain Proofs.GroupTac.
Import ListNotations.

Section Msg.
Variable S : sig.
Notation mixed := (mixed S).

Lemma bind_Ok {A C} (m : outcome A) (f : A -> outcome C) c :
  bind m f = Ok c -> exists a, m = Ok a /\ f a = Ok c.
Proof. destruct m; simpl; try discriminate. eauto. Qed.

(** erase at the position of an item *)
Lemma erase_pos i l : NoDup l -> In i l ->
  erase l (findRelativeItem i l) = filter (fun x => negb (x =? i)%Z) l.
Proof.
  unfold findRelativeItem. induction l as [|y l IH]; intros Hnd Hin; [destruct Hin|].
  inversion Hnd as [|? ? Hni Hnd']; subst. simpl.
  destruct (Z.eqb_spec y i) as [->|Hne]; simpl.
  - symmetry. clear -Hni. induction l as [|z l IH]; simpl in *; auto.
    destruct (Z.eqb_spec z i) as [->|]; [tauto|]. simpl. f_equal. tauto.
  - destruct Hin as [|Hin]; [congruence|]. destruct (find_pos_In i l Hin) as [k Ek].
    rewrite Ek. simpl. f_equal. rewrite Ek in IH. auto.
Qed.

Lemma put_map (w : Z -> D S) i u l : NoDup l -> In i l ->
  put S u (findRelativeItem i l) (map w (filter (fun x => negb (x =? i)%Z) l)) =
  map (set_item S w i u) l.
Proof.
  unfold findRelativeItem. induction l as [|y l IH]; intros Hnd Hin; [destruct Hin|].
  inversion Hnd as [|? ? Hni Hnd']; subst. simpl.
  destruct (Z.eqb_spec y i) as [->|Hne]; simpl.
  - unfold set_item at 1. rewrite Z.eqb_refl. f_equal.
    clear -Hni. induction l as [|z l IH]; simpl in *; auto.
    unfold set_item at 1. destruct (Z.eqb_spec z i) as [->|]; [tauto|]. simpl. f_equal. tauto.
  - destruct Hin as [|Hin]; [congruence|]. destruct (find_pos_In i l Hin) as [k Ek].
    rewrite Ek. simpl. unfold set_item at 1. destruct (Z.eqb_spec y i); [congruence|].
    f_equal. rewrite Ek in IH. auto.
Qed.

Definition scope_law : Prop := forall f d d2 k n items b,
  b_integral S f d d2 k n items = Ok b -> bscope S b = items.

Lemma integrate_wf (m m' : mixed) i : scope_law -> mwf m -> In i (m_items m) ->
  integrate m i = Ok m' ->
  mwf m' /\ m_items m' = filter (fun x => negb (x =? i)%Z) (m_items m) /\ m_fixed m' = false.
Proof.
  intros HL Hm Hi E. unfold integrate in E. apply bind_Ok in E. destruct E as (b & Eb & E).
  injection E as <-. apply HL in Eb. rewrite erase_pos in Eb by (auto; apply Hm).
  assert (Hnd : NoDup (filter (fun x => negb (x =? i)%Z) (m_items m))) by apply NoDup_filter, Hm.
  unfold setNormal. simpl. split; [|split; auto]. split; simpl; auto.
  - now rewrite Eb.
  - rewrite Eb. apply erase_pos; auto. apply Hm.
  - intros b' [<-|[]]. apply incl_refl.
Qed.

Section Exact.
Variable LI : (D S -> D S) -> D S.
Hypothesis X : exact_integral S LI.
Hypothesis L : group_laws S.

Lemma integrate_ev (m m' : mixed) i : mwf m -> In i (m_items m) ->
  integrate m i = Ok m' -> forall w, ev m' w = LI (fun u => ev m (set_item S w i u)).
Proof.
  intros Hm Hi E w. unfold integrate in E. apply bind_Ok in E. destruct E as (b & Eb & E).
  injection E as <-. pose proof (ei_scope _ _ X _ _ _ _ _ _ _ Eb) as Hs.
  rewrite ev_total by auto. unfold factors, setNormal, mixed_of_belief, total; simpl.
  unfold signed, fval, dsumS; simpl. rewrite (gl_zero S L).
  assert (Hnd : NoDup (m_items m)) by apply Hm.
  pose proof (erase_pos i (m_items m) Hnd Hi) as Her.
  apply (ei_value _ _ X _ _ _ _ _ _ _ Eb).
  - rewrite map_length. now rewrite Hs.
  - rewrite Her. unfold findRelativeItem. destruct (find_pos_In i _ Hi) as [k Ek]. rewrite Ek.
    apply find_pos_Some in Ek. clear -Ek Hnd.
    revert k Ek. induction Hnd as [|x l Hni Hnd IH]; intros [|k] Ek; simpl in *; try discriminate; [lia|].
    destruct (Z.eqb_spec x i) as [->|]; [exfalso; apply Hni; now apply nth_error_In in Ek|].
    simpl. apply IH in Ek. lia.
  - intros u. rewrite Hs, Her, put_map by auto. now apply evaluate_ev.
Qed.

End Exact.

(** fold of integrate *)
Lemma filter_true {A} (l : list A) : filter (fun _ => true) l = l.
Proof. induction l; simpl; congruence. Qed.

Lemma integrate_fold_wf : scope_law -> forall is (m m' : mixed), mwf m -> NoDup is -> incl is (m_items m) ->
  foldM integrate is m = Ok m' ->
  mwf m' /\ m_items m' = filter (fun x => negb (existsb (Z.eqb x) is)) (m_items m) /\
  (is <> [] -> m_fixed m' = false).
Proof.
  intros HL. induction is as [|i is IH]; intros m m' Hm Hnd Hi E.
  - injection E as <-. simpl. rewrite filter_true. split; auto. split; auto. congruence.
  - simpl in E. apply bind_Ok in E. destruct E as (m1 & E1 & E).
    inversion Hnd as [|? ? Hni Hnd']; subst.
    destruct (integrate_wf m m1 i HL Hm) as (W1 & I1 & F1); auto; [apply Hi; now left|].
    destruct (IH m1 m' W1 Hnd') as (W2 & I2 & F2); auto.
    { intros x Hx. rewrite I1. apply filter_In. split; [apply Hi; now right|].
      destruct (Z.eqb_spec x i); auto. subst; tauto. }
    split; auto. split.
    + rewrite I2, I1, filter_filter. apply filter_ext. intros x. simpl.
      rewrite negb_orb. apply andb_comm.
    + intros _. destruct is as [|j is]; [|apply F2; discriminate].
      simpl in E. injection E as <-. auto.
Qed.

Lemma iterated_ext LI : (forall f g, (forall u, f u = g u) -> LI f = LI g) ->
  forall order F G, (forall w, F w = G w) -> forall w, iterated S LI order F w = iterated S LI order G w.
Proof.
  intros Hx. unfold iterated. induction order as [|v order IH]; intros F G H w; simpl; auto.
  apply IH. intros w'. unfold int_out. apply Hx. intros u. apply H.
Qed.

Lemma integrate_fold_ev LI : exact_integral S LI -> group_laws S ->
  forall is (m m' : mixed), mwf m -> NoDup is -> incl is (m_items m) ->
  foldM integrate is m = Ok m' -> forall w, ev m' w = iterated S LI is (ev m) w.
Proof.
  intros X L. induction is as [|i is IH]; intros m m' Hm Hnd Hi E w.
  - injection E as <-. reflexivity.
  - simpl in E. apply bind_Ok in E. destruct E as (m1 & E1 & E).
    inversion Hnd as [|? ? Hni Hnd']; subst.
    assert (HL : scope_law) by (intros ? ? ? ? ? ? ? H; eapply ei_scope; eauto).
    assert (Him : In i (m_items m)) by (apply Hi; now left).
    destruct (integrate_wf m m1 i HL Hm Him E1) as (W1 & I1 & F1).
    rewrite (IH m1 m' W1 Hnd'); auto.
    + unfold iterated. simpl. apply (iterated_ext LI (ei_ext _ _ X)). intros w'.
      unfold int_out. eapply integrate_ev; eauto.
    + intros x Hx. rewrite I1. apply filter_In. split; [apply Hi; now right|].
      destruct (Z.eqb_spec x i); auto. subst; tauto.
Qed.

Lemma margin_wf (m m' : mixed) items b : scope_law -> mwf m -> NoDup items -> incl items (m_items m) ->
  margin m items b = Ok m' ->
  mwf m' /\ (forall x, In x (m_items m') <-> In x items).
Proof.
  intros HL Hm Hnd Hi E. unfold margin in E. destruct b.
  - injection E as <-. unfold setNormal; simpl. split; [|tauto]. split; simpl; auto. intros ? [].
  - assert (Hd : incl (findItemsDifference (m_items m) items) (m_items m)).
    { intros x Hx. apply findItemsDifference_In in Hx. tauto. }
    destruct (integrate_fold_wf HL _ m m' Hm (findItemsDifference_NoDup _ items (mwf_nd _ m Hm)) Hd E)
      as (W & I & _).
    split; auto. intros x. rewrite I, filter_In.
    assert (Hex : existsb (Z.eqb x) (findItemsDifference (m_items m) items) = true <->
                  In x (findItemsDifference (m_items m) items)).
    { rewrite existsb_exists. split.
      - intros (y & Hy & Ey). apply Z.eqb_eq in Ey. now subst.
      - intros H. exists x. split; auto. apply Z.eqb_refl. }
    rewrite findItemsDifference_In in Hex.
    destruct (existsb (Z.eqb x) (findItemsDifference (m_items m) items)); simpl.
    + split; [intros [_ ?]; discriminate|]. intros H. exfalso. destruct (proj1 Hex eq_refl). tauto.
    + split.
      * intros [H1 _]. destruct (in_dec Z.eq_dec x items); auto.
        assert (false = true) by (apply Hex; auto). discriminate.
      * intros H. split; auto.
Qed.

(** ** C10: message invariance *)
Record cgwf (cg : cgraph S) : Prop := {
  cw_clusters : forall c, In c (cg_clusters cg) -> mwf c;
  cw_edges : forall e, In e (cg_edges cg) -> mwf (e_belief e) /\
    exists i j ci cj, e_first e = Z.of_nat i /\ e_second e = Z.of_nat j /\
      nth_error (cg_clusters cg) i = Some ci /\ nth_error (cg_clusters cg) j = Some cj /\
      incl (m_items (e_belief e)) (m_items ci) /\ incl (m_items (e_belief e)) (m_items cj)
}.

Definition grand (cg : cgraph S) (w : Z -> D S) : D S :=
  dsub S (dsumS S (map (fun c => ev c w) (cg_clusters cg)))
         (dsumS S (map (fun e => ev (e_belief e) w) (cg_edges cg))).

Lemma zat_Ok {A} (l : list A) i x : nth_error l i = Some x -> zat l (Z.of_nat i) = Ok x.
Proof.
  intros H. unfold zat. destruct (Z.ltb_spec (Z.of_nat i) 0); [lia|]. rewrite Nat2Z.id.
  now apply vec_at_Ok.
Qed.

Lemma upd_In {A} (l : list A) i x y : In y (upd l i x) -> y = x \/ In y l.
Proof.
  revert i. induction l as [|z l IH]; intros [|i]; simpl; auto.
  - intros [|]; auto.
  - intros [|H]; auto. apply IH in H. tauto.
Qed.

Lemma upd_perm {A} (l : list A) i x y : nth_error l i = Some y ->
  exists rest, Permutation l (y :: rest) /\ Permutation (upd l i x) (x :: rest).
Proof.
  revert i. induction l as [|z l IH]; intros [|i] H; simpl in *; try discriminate.
  - injection H as ->. exists l. split; auto.
  - destruct (IH i H) as (r & H1 & H2). exists (z :: r). split.
    + rewrite H1. apply perm_swap.
    + rewrite H2. apply perm_swap.
Qed.

Section Grand.
Hypothesis L : group_laws S.
Notation add := (dadd S).
Notation sub := (dsub S).

Lemma sum_upd {A} (f : A -> D S) l i x y : nth_error l i = Some y ->
  add (dsumS S (map f (upd l i x))) (f y) = add (dsumS S (map f l)) (f x).
Proof.
  intros H. destruct (upd_perm l i x y H) as (r & H1 & H2).
  rewrite (dsumS_perm S L _ _ (Permutation_map f H1)), (dsumS_perm S L _ _ (Permutation_map f H2)).
  unfold dsumS; simpl. dgroup L.
Qed.

Lemma sub_shift a b c d : add a d = add c b -> sub a b = sub c d.
Proof.
  intros H. apply (d_move S L _ _ _ _ H). dgroup L.
Qed.

Lemma pass_grand (cg cg' : cgraph S) k fwd nonly : scope_law -> cgwf cg ->
  passMessage cg k fwd nonly = Ok cg' ->
  cgwf cg' /\ (forall w, grand cg' w = grand cg w) /\
  map m_items (cg_clusters cg') = map m_items (cg_clusters cg) /\
  length (cg_edges cg') = length (cg_edges cg) /\
  map (fun e => (e_first e, e_second e)) (cg_edges cg') =
  map (fun e => (e_first e, e_second e)) (cg_edges cg).
Proof.
  intros HL W E. unfold passMessage in E. apply bind_Ok in E. destruct E as (e & Ee & E).
  unfold vec_get in Ee. destruct (nth_error (cg_edges cg) k) as [e'|] eqn:En; [|discriminate].
  injection Ee as ->.
  destruct (cw_edges cg W e (nth_error_In _ _ En)) as (We & i & j & ci & cj & Hf & Hs & Hi & Hj & Ii & Ij).
  set (si := if fwd then i else j). set (sj := if fwd then j else i).
  set (csi := if fwd then ci else cj). set (csj := if fwd then cj else ci).
  assert (E1 : (if fwd then e_first e else e_second e) = Z.of_nat si) by (unfold si; destruct fwd; auto).
  assert (E2 : (if fwd then e_second e else e_first e) = Z.of_nat sj) by (unfold sj; destruct fwd; auto).
  assert (Nsi : nth_error (cg_clusters cg) si = Some csi) by (unfold si, csi; destruct fwd; auto).
  assert (Nsj : nth_error (cg_clusters cg) sj = Some csj) by (unfold sj, csj; destruct fwd; auto).
  assert (Isi : incl (m_items (e_belief e)) (m_items csi)) by (unfold csi; destruct fwd; auto).
  assert (Isj : incl (m_items (e_belief e)) (m_items csj)) by (unfold csj; destruct fwd; auto).
  rewrite E1, E2, (zat_Ok _ _ _ Nsi), (zat_Ok _ _ _ Nsj) in E. cbn [bind] in E.
  apply bind_Ok in E. destruct E as (e1 & Ep & E).
  unfold projectClusterOntoEdge in Ep. apply bind_Ok in Ep. destruct Ep as (b & Eb & Ep).
  injection Ep as <-. cbn [bind e_belief] in E.
  assert (Wsi : mwf csi) by (apply W; eapply nth_error_In; eauto).
  assert (Wsj : mwf csj) by (apply W; eapply nth_error_In; eauto).
  destruct (margin_wf csi b (m_items (e_belief e)) nonly HL Wsi (mwf_nd _ _ We) Isi Eb) as [Wb Ib].
  apply bind_Ok in E. destruct E as (proper & _ & E). destruct proper; [|discriminate].
  injection E as <-. rewrite Nat2Z.id.
  set (c' := mixed_div (mixed_mul csj b) (e_belief e)) in *.
  set (e' := mkEdge (e_first e) (e_second e) b) in *.
  assert (Wm : mwf (mixed_mul csj b)).
  { apply mwf_mul; auto. intros x Hx. apply Isj, Ib, Hx. }
  assert (Hmi : m_items (mixed_mul csj b) = m_items csj) by now apply mul_items.
  assert (Wc' : mwf c') by (apply mwf_div; auto; now rewrite Hmi).
  assert (Hci : m_items c' = m_items csj) by (unfold c'; rewrite div_items by auto; auto).
  assert (Hmap : map m_items (upd (cg_clusters cg) sj c') = map m_items (cg_clusters cg)).
  { rewrite upd_map, Hci. apply upd_same. now apply map_nth_error. }
  assert (Hcl : forall n c, nth_error (cg_clusters cg) n = Some c ->
     exists c1, nth_error (upd (cg_clusters cg) sj c') n = Some c1 /\ m_items c1 = m_items c).
  { intros n c Hn. destruct (Nat.eq_dec sj n) as [<-|Hne].
    - exists c'. split; [apply nth_error_upd_eq; apply nth_error_Some; congruence|]. congruence.
    - exists c. split; auto. now rewrite nth_error_upd_neq. }
  split; [|split; [|split; [|split]]]; simpl.
  - split; simpl.
    + intros c Hc. apply upd_In in Hc. destruct Hc as [->|Hc]; auto. now apply W.
    + intros e0 He0. apply upd_In in He0. destruct He0 as [->|He0].
      * split; [exact Wb|]. destruct (Hcl i ci Hi) as (ci1 & N1 & I1), (Hcl j cj Hj) as (cj1 & N2 & I2).
        exists i, j, ci1, cj1. simpl. rewrite I1, I2. repeat (split; auto); intros x Hx; apply Ib in Hx; auto.
      * destruct (cw_edges cg W e0 He0) as (We0 & i0 & j0 & ci0 & cj0 & F0 & S0 & Hi0 & Hj0 & Ii0 & Ij0).
        split; auto. destruct (Hcl i0 ci0 Hi0) as (ci1 & N1 & I1), (Hcl j0 cj0 Hj0) as (cj1 & N2 & I2).
        exists i0, j0, ci1, cj1. rewrite I1, I2. repeat (split; auto).
  - intros w. unfold grand; simpl. apply sub_shift.
    pose proof (sum_upd (fun c => ev c w) _ sj c' csj Nsj) as H1.
    pose proof (sum_upd (fun e => ev (e_belief e) w) _ k e' e En) as H2. simpl in H1, H2.
    assert (Hc' : ev c' w = add (ev csj w) (sub (ev b w) (ev (e_belief e) w))).
    { unfold c'. rewrite ev_div, ev_mul by auto. dgroup L. }
    rewrite Hc' in H1.
    set (A1 := dsumS S (map (fun c => ev c w) (upd (cg_clusters cg) sj c'))) in *.
    set (A0 := dsumS S (map (fun c => ev c w) (cg_clusters cg))) in *.
    set (B1 := dsumS S (map (fun e => ev (e_belief e) w) (upd (cg_edges cg) k e'))) in *.
    set (B0 := dsumS S (map (fun e => ev (e_belief e) w) (cg_edges cg))) in *.
    assert (HA : A1 = add A0 (sub (ev b w) (ev (e_belief e) w))).
    { apply (d_move S L _ _ _ _ H1). dgroup L. }
    rewrite HA. symmetry in H2. apply (d_move S L _ _ _ _ H2). dgroup L.
  - exact Hmap.
  - apply upd_length.
  - rewrite upd_map. simpl. apply upd_same. now apply (map_nth_error (fun e => (e_first e, e_second e))).
Qed.

End Grand.
End Msg.
