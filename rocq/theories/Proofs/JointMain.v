(** C54: setNormalApprox leaves the marginals of the joint normal in the clusters
    and on the edges. *)
From Coq Require Import List Reals Lia Lra Arith ZArith Bool Sorted.
From Verif Require Import Model.Base Model.Items Model.Vectors Model.Mixed Model.ClusterGraph Model.MultiNormal Model.NormalSig
  Spec.GLMMSpec Spec.MatrixSpec Spec.GraphSpec Spec.ElimSpec Spec.TreeSpec Spec.JointSpec
  Proofs.ItemsLemmas Proofs.MixedLemmas Proofs.MessageLemmas Proofs.ElimLemmas Proofs.BuildLemmas Proofs.ClusterMain
  Proofs.SumLemmas Proofs.NormalMain Proofs.PosDef Proofs.JointLemmas Proofs.JointForms.
Import ListNotations.
Local Open Scope R_scope.

(** ** Elimination orderings *)
Lemma elim_later a es cs ss : elim a es cs ss -> wf a -> forall k e, nth_error es k = Some e ->
  forall j c, (k < j)%nat -> nth_error cs j = Some c -> ~ In e c.
Proof.
  intros Hel Hwf k e He j c Hj Hc. destruct (elim_lengths Hel) as [L1 L2].
  assert (k < length es)%nat by (apply nth_error_Some; congruence).
  destruct (nth_error ss k) as [s|] eqn:Es; [|apply nth_error_None in Es; lia].
  destruct (elim_cluster _ _ _ _ Hel Hwf k e s He Es) as (c0 & _ & _ & _ & _ & H1). eauto.
Qed.

Lemma elim_adjacent a es cs ss : elim a es cs ss -> wf a -> forall k e c, nth_error es k = Some e -> nth_error cs k = Some c ->
  forall y, In y (a_items a) -> a_adj a e y -> ~ In y (firstn k es) -> In y c.
Proof.
  induction 1 as [a Hc|a e sep cl es cs ss Hnc Hmin Hnb Hsort Hcl Hel IH]; intros Hwf k x c Hx Hcx y Hyi Hadj Hy.
  - destruct k; discriminate.
  - destruct k as [|k].
    + injection Hx as <-. injection Hcx as <-. apply Hcl. right. apply Hnb. destruct Hwf as [Hs Hi]. auto.
    + cbn [firstn In nth_error] in *. apply (IH (wf_elim_step a e sep Hwf Hnb) k x c Hx Hcx y); [|simpl; tauto|tauto].
      apply a_remove_In. split; [exact Hyi|]. intros ->. tauto.
Qed.

Section Graph.
Variables (inverse : rmat -> rmat) (determinant : rmat -> R) (isnormal : R -> bool)
  (B0 : Type) (bsc : B0 -> list Z) (bev : B0 -> list R -> R) (bd : B0 -> list R -> list R)
  (bd2 : B0 -> list R -> list (list R))
  (integral : (list R -> outcome R) -> (list R -> outcome (list R)) ->
              (list R -> outcome (list (list R))) -> nat -> mnormal -> list Z -> outcome B0).
Hypothesis Hinv : forall d A, inverts inverse d A.
Let S := normal_sig inverse determinant isnormal B0 bsc bev bd bd2 integral.
Variables (scopes : list (list Z)) (items es : list Z) (cls seps : list (list Z)) (Q : Z -> Z -> R) (mu : Z -> R).
Hypothesis Nd : NoDup items.
Hypothesis Hel : elim (scopes_graph scopes items) es cls seps.
Hypothesis NCl : forall c, In c cls -> NoDup c.
Hypothesis J : joint_precision scopes items Q.
Let Hwf := scopes_graph_wf scopes items.
Notation uf := (uform items Q).

Definition nrm (m : mixed S) : mnormal := n_normal (m_normal m).
Definition mfrm (m : mixed S) (w : Z -> R) : R := frm (m_items m) (nrm m) w.
Record okm (C : list Z) (m : mixed S) : Prop := {
  om_items : m_items m = C;
  om_nitems : n_items (m_normal m) = C;
  om_free : m_fixed m = false;
  om_good : good determinant mu C (nrm m)
}.
Record okst (cg : cgraph S) : Prop := {
  os_len : length (cg_clusters cg) = length cls;
  os_cl : forall i C, nth_error cls i = Some C -> exists c, nth_error (cg_clusters cg) i = Some c /\ okm C c;
  os_ne : length (cg_edges cg) = length seps;
  os_ed : forall i s, nth_error seps i = Some s -> exists p eb,
    nth_error (cg_edges cg) i = Some (mkEdge (Z.of_nat i) (Z.of_nat p) eb) /\ first_containing cls i s p /\ okm s eb
}.
Definition cf (cg : cgraph S) (i : nat) (w : Z -> R) : R :=
  match nth_error (cg_clusters cg) i with Some c => mfrm c w | None => 0 end.
Definition ef (cg : cgraph S) (i : nat) (w : Z -> R) : R :=
  match nth_error (cg_edges cg) i with Some e => mfrm (e_belief e) w | None => 0 end.

Lemma sep_facts k s : nth_error seps k = Some s -> exists e c, nth_error es k = Some e /\
  nth_error cls k = Some c /\ (forall x, In x c <-> x = e \/ In x s) /\ ~ In e s /\ NoDup s.
Proof.
  intros Hs. destruct (elim_lengths Hel) as [L1 L2].
  assert (k < length seps)%nat by (apply nth_error_Some; congruence).
  destruct (nth_error es k) as [e|] eqn:Ee; [|apply nth_error_None in Ee; lia].
  destruct (elim_cluster _ _ _ _ Hel Hwf k e s Ee Hs) as (c & H1 & H2 & H3 & H4 & _). eauto 10.
Qed.
Lemma cls_items i C : nth_error cls i = Some C -> NoDup C /\ incl C items.
Proof.
  intros H. apply nth_error_In in H. split; auto. apply (elim_incl _ _ _ _ Hel Hwf C H).
Qed.
Lemma seps_items k s : nth_error seps k = Some s -> NoDup s /\ incl s items.
Proof.
  intros H. destruct (sep_facts k s H) as (e & c & He & Hc & Hcs & _ & N). split; auto.
  intros x Hx. apply (proj2 (cls_items k c Hc)). apply Hcs. auto.
Qed.

Lemma nth_error_upd_eq {A} (l : list A) i x : (i < length l)%nat -> nth_error (upd l i x) i = Some x.
Proof. revert i. induction l as [|y l IH]; intros [|i] H; simpl in *; try lia; auto. apply IH. lia. Qed.
Lemma nth_error_upd_ne {A} (l : list A) i j x : i <> j -> nth_error (upd l i x) j = nth_error l j.
Proof. revert i j. induction l as [|y l IH]; intros [|i] [|j] H; simpl; auto; try lia. Qed.
Lemma upd_len {A} (l : list A) i x : length (upd l i x) = length l.
Proof. revert i. induction l as [|y l IH]; intros [|i]; simpl; auto. Qed.

(** One message. *)
Lemma pass_normal cg cg' k fw s : okst cg -> passMessage cg k fw true = Ok cg' -> nth_error seps k = Some s ->
  exists p Cp b, first_containing cls k s p /\ nth_error cls p = Some Cp /\ incl s Cp /\
  let i := if fw then k else p in let j := if fw then p else k in
  is_min (cf cg i) s b /\
  forall Cj, nth_error cls j = Some Cj -> positive_on Cj (fun w => cf cg j w + b w - ef cg k w) ->
    okst cg' /\ (forall w, cf cg' j w = cf cg j w + b w - ef cg k w) /\
    (forall l, l <> j -> forall w, cf cg' l w = cf cg l w) /\
    (forall w, ef cg' k w = b w) /\ (forall l, l <> k -> forall w, ef cg' l w = ef cg l w).
Proof.
  intros H E Hs. destruct (os_ed _ H k s Hs) as (p & eb & Ne & Fc & Oe).
  destruct Fc as (Hkp & (Cp & HCp & Hsp) & Fc3).
  destruct (sep_facts k s Hs) as (e & Ck & He & HCk & Hcs & _ & Ns).
  assert (Hsk : incl s Ck) by (intros x Hx; apply Hcs; auto).
  set (i := if fw then k else p). set (j := if fw then p else k).
  assert (HCi : exists Ci, nth_error cls i = Some Ci /\ incl s Ci) by (unfold i; destruct fw; eauto).
  assert (HCj : exists Cj, nth_error cls j = Some Cj /\ incl s Cj) by (unfold j; destruct fw; eauto).
  destruct HCi as (Ci & Hi & Hsi). destruct HCj as (Cj & Hj & Hsj).
  destruct (os_cl _ H i Ci Hi) as (ci & Nci & Oi). destruct (os_cl _ H j Cj Hj) as (cj & Ncj & Oj).
  destruct (cls_items i Ci Hi) as [NCi ICi]. destruct (cls_items j Cj Hj) as [NCj ICj].
  unfold passMessage in E. apply bind_Ok in E. destruct E as (e0 & E0 & E).
  unfold vec_get in E0. rewrite Ne in E0. injection E0 as <-. cbn [e_first e_second e_belief] in E.
  apply bind_Ok in E. destruct E as (ci' & E1 & E).
  assert (Zi : (if fw then Z.of_nat k else Z.of_nat p) = Z.of_nat i) by (unfold i; destruct fw; reflexivity).
  assert (Zj : (if fw then Z.of_nat p else Z.of_nat k) = Z.of_nat j) by (unfold j; destruct fw; reflexivity).
  rewrite Zi in E1. rewrite Zj in E.
  assert (Zat : forall n c, nth_error (cg_clusters cg) n = Some c -> zat (cg_clusters cg) (Z.of_nat n) = Ok c).
  { intros n c Hn. unfold zat. destruct (Z.ltb_spec (Z.of_nat n) 0); [lia|]. rewrite Nat2Z.id. unfold vec_at. rewrite Hn. reflexivity. }
  rewrite (Zat i ci Nci) in E1. injection E1 as <-.
  apply bind_Ok in E. destruct E as (e' & E2 & E).
  unfold projectClusterOntoEdge, margin in E2. cbn [e_belief bind] in E2. injection E2 as <-.
  rewrite (Zat j cj Ncj) in E. cbn [bind e_belief] in E.
  apply bind_Ok in E. destruct E as (pr & _ & E). destruct pr; [|discriminate]. injection E as <-.
  rewrite (om_items _ _ Oe) in *.
  set (nb := computeMarginal inverse determinant (nrm ci) (findRelativeItems s (n_items (m_normal ci)))).
  set (b := setNormal (mixed_of_items s) (n_margin (m_normal ci) s)).
  assert (Eb : nrm b = nb) by reflexivity.
  destruct (marginal_good inverse determinant mu Hinv Ci s (nrm ci) NCi Ns Hsi (om_good _ _ Oi)) as [Gb Mb].
  assert (Enb : nb = computeMarginal inverse determinant (nrm ci) (findRelativeItems s Ci))
    by (unfold nb; rewrite (om_nitems _ _ Oi); reflexivity).
  rewrite <- Enb in Gb, Mb.
  assert (Ob : okm s b) by (constructor; auto).
  assert (Ci_cf : forall w, frm Ci (nrm ci) w = cf cg i w).
  { intros w. unfold cf. rewrite Nci. unfold mfrm. rewrite (om_items _ _ Oi). reflexivity. }
  assert (Cj_cf : forall w, frm Cj (nrm cj) w = cf cg j w).
  { intros w. unfold cf. rewrite Ncj. unfold mfrm. rewrite (om_items _ _ Oj). reflexivity. }
  assert (Ce_ef : forall w, frm s (nrm eb) w = ef cg k w).
  { intros w. unfold ef. rewrite Ne. cbn [e_belief]. unfold mfrm. rewrite (om_items _ _ Oe). reflexivity. }
  exists p, Cp, (frm s nb). split; [repeat split; eauto|]. split; auto. split; auto. split.
  { apply (is_min_ext _ _ _ _ _ Ci_cf (fun w => eq_refl) Mb). }
  fold i j. intros Cj' Hj' Hpos. rewrite Hj in Hj'. injection Hj' as <-.
  destruct (mul_good inverse determinant mu Hinv Cj s (nrm cj) nb NCj Ns Hsj (om_good _ _ Oj) Gb) as [G1 F1].
  cbv zeta in G1, F1. set (r1 := multiplySubset inverse determinant (nrm cj) nb (findRelativeItems s Cj)) in *.
  destruct (div_good inverse determinant mu Hinv Cj s r1 (nrm eb) NCj Ns Hsj G1 (om_good _ _ Oe)) as [G2 F2].
  { intros w Hw. rewrite F1, Cj_cf, Ce_ef. apply Hpos, Hw. }
  set (cj' := mixed_div (mixed_mul cj b) eb).
  assert (Ncj' : nrm cj' = divideSubset inverse determinant r1 (nrm eb) (findRelativeItems s Cj)).
  { unfold nrm, cj', mixed_div, mixed_mul, recompute. cbn [m_fixed m_normal n_normal].
    rewrite (om_free _ _ Oj). unfold n_div, n_mul. cbn [m_fixed m_normal n_normal n_items].
    rewrite (om_nitems _ _ Oj), (om_nitems _ _ Ob), (om_nitems _ _ Oe). reflexivity. }
  assert (Oj' : okm Cj cj').
  { constructor.
    - unfold cj', mixed_div, mixed_mul, recompute. cbn [m_fixed m_normal n_normal m_items].
      rewrite (om_free _ _ Oj). unfold n_div, n_mul. cbn [n_items]. apply Oj.
    - unfold cj', mixed_div, mixed_mul, recompute. cbn [m_fixed m_normal n_normal m_items].
      rewrite (om_free _ _ Oj). unfold n_div, n_mul. cbn [n_items]. apply Oj.
    - unfold cj', mixed_div, mixed_mul, recompute. cbn [m_fixed]. apply Oj.
    - rewrite Ncj'. exact G2. }
  rewrite Nat2Z.id.
  assert (Lj : (j < length (cg_clusters cg))%nat) by (apply nth_error_Some; congruence).
  assert (Lk : (k < length (cg_edges cg))%nat) by (apply nth_error_Some; congruence).
  split; [|split; [|split; [|split]]].
  - constructor; cbn [cg_clusters cg_edges].
    + rewrite upd_len. apply H.
    + intros l C Hl. destruct (Nat.eq_dec j l) as [<-|Hne].
      * rewrite Hj in Hl. injection Hl as <-. exists cj'. split; auto. apply nth_error_upd_eq; auto.
      * rewrite nth_error_upd_ne by auto. apply (os_cl _ H); auto.
    + rewrite upd_len. apply H.
    + intros l s' Hl. destruct (Nat.eq_dec k l) as [<-|Hne].
      * rewrite Hs in Hl. injection Hl as <-. exists p, b. split; [apply nth_error_upd_eq; auto|].
        split; auto. repeat split; eauto.
      * rewrite nth_error_upd_ne by auto. apply (os_ed _ H); auto.
  - intros w. unfold cf at 1. cbn [cg_clusters]. rewrite nth_error_upd_eq by auto. unfold mfrm.
    rewrite (om_items _ _ Oj'), Ncj', F2, F1, Cj_cf, Ce_ef. reflexivity.
  - intros l Hl w. unfold cf. cbn [cg_clusters]. rewrite nth_error_upd_ne by auto. reflexivity.
  - intros w. unfold ef. cbn [cg_edges]. rewrite nth_error_upd_eq by auto. reflexivity.
  - intros l Hl w. unfold ef. cbn [cg_edges]. rewrite nth_error_upd_ne by auto. reflexivity.
Qed.

(** ** The forward pass.  U i is the set of items whose part of the form has been
    minimised into cluster i. *)
Definition closed (U : Z -> bool) (x : Z) : Prop := forall y, In y items -> Q x y <> 0 -> U y = true.

Record fwd (t : nat) (cg : cgraph S) (U : nat -> Z -> bool) : Prop := {
  f_ok : okst cg;
  f_items : forall i C, nth_error cls i = Some C -> (forall x, In x C -> U i x = true) /\ (forall x, U i x = true -> In x items);
  f_min : forall i C, nth_error cls i = Some C -> is_min (uf (U i)) C (cf cg i);
  f_in : forall i C x, (t <= i)%nat -> nth_error cls i = Some C -> U i x = true -> In x C \/ In x (firstn t es);
  f_cl : forall i C x, nth_error cls i = Some C -> U i x = true -> ~ In x C -> closed (U i) x;
  f_one : forall i j Ci Cj x, (t <= i)%nat -> (t <= j)%nat -> nth_error cls i = Some Ci -> nth_error cls j = Some Cj ->
    In x (firstn t es) -> U i x = true -> U j x = true -> i = j;
  f_some : forall x, In x (firstn t es) -> exists i C, (t <= i)%nat /\ nth_error cls i = Some C /\ U i x = true;
  f_done : forall i s, (i < t)%nat -> nth_error seps i = Some s ->
    is_min (uf (U i)) s (ef cg i) /\ (forall x, U i x = true -> ~ In x s -> closed (U i) x);
  f_todo : forall i s, (t <= i)%nat -> nth_error seps i = Some s -> forall w, ef cg i w = uf (fun x => memb x s) w
}.

Lemma firstn_next {A} (l : list A) k e : nth_error l k = Some e -> firstn (k + 1) l = firstn k l ++ [e].
Proof.
  revert k. induction l as [|x l IH]; intros [|k] H; simpl in *; try discriminate.
  - now injection H as ->.
  - f_equal. now apply IH.
Qed.
Lemma firstn_nth {A} (l : list A) k x : In x (firstn k l) -> exists i, (i < k)%nat /\ nth_error l i = Some x.
Proof.
  revert k. induction l as [|y l IH]; intros [|k] H; simpl in *; try tauto. destruct H as [<-|H].
  - exists 0%nat. split; [lia|reflexivity].
  - destruct (IH k H) as (i & Hi & E). exists (Datatypes.S i). split; [lia|exact E].
Qed.
Lemma eliminated_out t i C x : (t <= i)%nat -> nth_error cls i = Some C -> In x (firstn t es) -> ~ In x C.
Proof.
  intros Hi HC Hx. destruct (firstn_nth _ _ _ Hx) as (l & Hl & E).
  apply (elim_later _ _ _ _ Hel Hwf l x E i C); auto. lia.
Qed.
Lemma es_not_before k e : nth_error es k = Some e -> ~ In e (firstn k es).
Proof.
  intros He Hin. destruct (firstn_nth _ _ _ Hin) as (l & Hl & E).
  pose proof (elim_es_NoDup _ _ _ _ Hel) as N.
  assert (l = k); [|lia]. apply (proj1 (NoDup_nth_error es) N); [|congruence]. apply nth_error_Some. congruence.
Qed.

Lemma fwd_step t cg cg' U s : fwd t cg U -> nth_error seps t = Some s -> passMessage cg t true true = Ok cg' ->
  exists U', fwd (t + 1) cg' U'.
Proof.
  intros F Hs E. pose proof (f_ok _ _ _ F) as Ok0.
  destruct (pass_normal cg cg' t true s Ok0 E Hs) as (p & Cp & b & Fc & HCp & Hsp & Mb & Post).
  cbv zeta in Mb, Post.
  destruct (sep_facts t s Hs) as (e & Ct & He & HCt & Hcs & Hes & Ns).
  destruct Fc as (Htp & _ & _).
  destruct (f_items _ _ _ F t Ct HCt) as [Ut1 Ut2]. destruct (f_items _ _ _ F p Cp HCp) as [Up1 Up2].
  destruct (cls_items p Cp HCp) as [NCp ICp]. destruct (cls_items t Ct HCt) as [NCt ICt].
  assert (Hst : incl s Ct) by (intros x Hx; apply Hcs; auto).
  assert (Hep : forall i C, (t < i)%nat -> nth_error cls i = Some C -> ~ In e C).
  { intros i C Hi HC. apply (elim_later _ _ _ _ Hel Hwf t e He i C Hi HC). }
  assert (HeU : forall i C, (t < i)%nat -> nth_error cls i = Some C -> U i e = true -> False).
  { intros i C Hi HC Ue. destruct (f_in _ _ _ F i C e ltac:(lia) HC Ue) as [H|H].
    - exact (Hep i C Hi HC H).
    - exact (es_not_before t e He H). }
  assert (Cl : forall x, U t x = true -> ~ In x s -> closed (U t) x).
  { intros x Ux Hx. destruct (in_dec Z.eq_dec x Ct) as [Hin|Hin]; [|apply (f_cl _ _ _ F t Ct); auto].
    apply Hcs in Hin. destruct Hin as [->|]; [|contradiction]. intros y Hy HQ.
    destruct (Z.eq_dec e y) as [<-|Hey]; auto.
    destruct (in_dec Z.eq_dec y (firstn t es)) as [Hye|Hye].
    - destruct (f_some _ _ _ F y Hye) as (i & C & Hi & HC & Uy).
      assert (Ue : U i e = true).
      { apply (f_cl _ _ _ F i C y HC Uy); [apply (eliminated_out t i C y); auto|auto|].
        rewrite (jp_sym _ _ _ J y e) by auto. exact HQ. }
      destruct (Nat.eq_dec i t) as [->|]; auto. exfalso. apply (HeU i C); auto. lia.
    - apply Ut1. apply (elim_adjacent _ _ _ _ Hel Hwf t e Ct He HCt y); auto.
      simpl. split; auto. apply (jp_local _ _ _ J e y); auto. }
  assert (Inter : forall x, U t x = true -> U p x = true -> In x s).
  { intros x Hx Hx'. destruct (in_dec Z.eq_dec x (firstn t es)) as [H|H].
    - assert (t = p); [|lia]. apply (f_one _ _ _ F t p Ct Cp x); auto. lia.
    - destruct (f_in _ _ _ F t Ct x ltac:(lia) HCt Hx) as [H1|]; [|contradiction].
      destruct (f_in _ _ _ F p Cp x ltac:(lia) HCp Hx') as [H2|]; [|contradiction].
      apply Hcs in H1. destruct H1 as [->|]; auto. exfalso. exact (Hep p Cp Htp HCp H2). }
  set (W := fun x => U t x || U p x).
  assert (Split : forall w, uf W w = uf (U t) w + uf (U p) w - uf (fun x => memb x s) w).
  { apply (uform_split scopes items Q J); [reflexivity| |].
    - intros x _. destruct (memb x s) eqn:M.
      + apply memb_In in M. rewrite (Ut1 x (Hst x M)), (Up1 x (Hsp x M)). reflexivity.
      + apply memb_false in M. destruct (U t x) eqn:Etx; [|reflexivity]. destruct (U p x) eqn:Epx; [|reflexivity]. contradiction (M (Inter x Etx Epx)).
    - intros x y Hx Hy H1 H2 H3 H4. destruct (Req_dec (Q x y) 0) as [|HQ]; auto. exfalso.
      apply memb_false in H2, H4. apply H4, Inter; auto. exact (Cl x H1 H2 y Hy HQ). }
  assert (Mt : is_min (uf (U t)) s b).
  { eapply is_min_trans; [|exact (f_min _ _ _ F t Ct HCt)|exact Mb]. exact Hst. }
  assert (Mp : is_min (uf W) Cp (fun w => cf cg p w + b w - ef cg t w)).
  { eapply is_min_ext; [intros w; symmetry; apply Split| |].
    2:{ apply (is_min_split (uf (U t)) (uf (U p)) (uf (fun x => memb x s)) (U t) (U p) s Cp b (cf cg p)); auto.
        - apply uform_depends.
        - apply uform_depends.
        - intros w w' Hw. apply uform_agree. exact Hw.
        - apply (f_min _ _ _ F p Cp HCp). }
    intros w. rewrite (f_todo _ _ _ F t s (le_n t) Hs w). ring. }
  destruct (Post Cp HCp) as (Ok1 & Cp' & Cl' & Et' & El').
  { apply (is_min_positive scopes items Q J W); auto. intros x Hx. unfold W. rewrite (Up1 x Hx). apply orb_true_r. }
  exists (fun i => if Nat.eqb i p then W else U i).
  assert (Ufe : forall x, In x (firstn (t + 1) es) <-> In x (firstn t es) \/ x = e).
  { intros x. rewrite (firstn_next _ _ _ He), in_app_iff. simpl. intuition. }
  constructor; auto.
  - intros i C HC. destruct (Nat.eqb_spec i p) as [->|Hne]; [|apply (f_items _ _ _ F i C HC)].
    rewrite HCp in HC. injection HC as <-. unfold W. split.
    + intros x Hx. rewrite (Up1 x Hx). apply orb_true_r.
    + intros x Hx. apply orb_true_iff in Hx. destruct Hx; auto.
  - intros i C HC. destruct (Nat.eqb_spec i p) as [->|Hne].
    + rewrite HCp in HC. injection HC as <-. eapply is_min_ext; [reflexivity| |exact Mp]. intros w. rewrite Cp'. reflexivity.
    + eapply is_min_ext; [reflexivity| |exact (f_min _ _ _ F i C HC)]. intros w. rewrite Cl'; auto.
  - intros i C x Hi HC Ux. rewrite Ufe. destruct (Nat.eqb_spec i p) as [->|Hne].
    + rewrite HCp in HC. injection HC as <-. unfold W in Ux. apply orb_true_iff in Ux. destruct Ux as [Ux|Ux].
      * destruct (f_in _ _ _ F t Ct x ltac:(lia) HCt Ux) as [H|H]; auto. apply Hcs in H. destruct H as [->|H]; auto.
      * destruct (f_in _ _ _ F p Cp x ltac:(lia) HCp Ux) as [H|H]; auto.
    + destruct (f_in _ _ _ F i C x ltac:(lia) HC Ux) as [H|H]; auto.
  - intros i C x HC Ux Hx. destruct (Nat.eqb_spec i p) as [->|Hne]; [|apply (f_cl _ _ _ F i C x HC Ux Hx)].
    rewrite HCp in HC. injection HC as <-. unfold W in Ux. apply orb_true_iff in Ux. intros y Hy HQ. unfold W.
    apply orb_true_iff. destruct Ux as [Ux|Ux].
    + left. apply (Cl x Ux); auto.
    + right. apply (f_cl _ _ _ F p Cp x HCp Ux Hx y Hy HQ).
  - intros i j Ci Cj x Hi Hj HCi HCj Hx Uxi Uxj. apply Ufe in Hx.
    assert (G : forall i C, (t + 1 <= i)%nat -> nth_error cls i = Some C -> (if Nat.eqb i p then W else U i) x = true ->
              (i = p /\ U t x = true) \/ U i x = true).
    { intros l C Hl HC Ux. destruct (Nat.eqb_spec l p) as [->|]; auto. unfold W in Ux. apply orb_true_iff in Ux. tauto. }
    destruct Hx as [Hx| ->].
    + destruct (G i Ci Hi HCi Uxi) as [[-> U1]|U1], (G j Cj Hj HCj Uxj) as [[-> U2]|U2]; auto.
      * exfalso. assert (t = j); [|lia]. apply (f_one _ _ _ F t j Ct Cj x); auto; lia.
      * exfalso. assert (t = i); [|lia]. apply (f_one _ _ _ F t i Ct Ci x); auto; lia.
      * apply (f_one _ _ _ F i j Ci Cj x); auto; lia.
    + destruct (G i Ci Hi HCi Uxi) as [[-> U1]|U1]; [|exfalso; apply (HeU i Ci); auto; lia].
      destruct (G j Cj Hj HCj Uxj) as [[-> U2]|U2]; [|exfalso; apply (HeU j Cj); auto; lia]. reflexivity.
  - intros x Hx. apply Ufe in Hx.
    assert (G : U t x = true -> exists i C, (t + 1 <= i)%nat /\ nth_error cls i = Some C /\ (if Nat.eqb i p then W else U i) x = true).
    { intros Ux. exists p, Cp. split; [lia|]. split; auto. rewrite Nat.eqb_refl. unfold W. rewrite Ux. reflexivity. }
    destruct Hx as [Hx| ->].
    + destruct (f_some _ _ _ F x Hx) as (i & C & Hi & HC & Ux). destruct (Nat.eq_dec i t) as [->|]; auto.
      exists i, C. split; [lia|]. split; auto. destruct (Nat.eqb_spec i p) as [->|]; auto. unfold W. rewrite Ux. apply orb_true_r.
    + apply G, Ut1, Hcs. auto.
  - intros i s' Hi Hs'. destruct (Nat.eqb_spec i p) as [->|_]; [lia|]. destruct (Nat.eq_dec i t) as [->|Hne].
    + rewrite Hs in Hs'. injection Hs' as <-. split; auto. eapply is_min_ext; [reflexivity| |exact Mt].
      intros w. symmetry. apply Et'.
    + destruct (f_done _ _ _ F i s' ltac:(lia) Hs') as [M K]. split; auto.
      eapply is_min_ext; [reflexivity| |exact M]. intros w. symmetry. apply El'. exact Hne.
  - intros i s' Hi Hs' w. rewrite El' by lia. apply (f_todo _ _ _ F i s'); auto. lia.
Qed.

Lemma fwd_all : forall n t cg cg' U, (t + n = length seps)%nat -> fwd t cg U ->
  foldM (fun c k => passMessage c k true true) (seq t n) cg = Ok cg' -> exists U', fwd (length seps) cg' U'.
Proof.
  induction n as [|n IH]; intros t cg cg' U Ht F E; simpl in E.
  - injection E as <-. exists U. replace (length seps) with t by lia. exact F.
  - apply bind_Ok in E. destruct E as (cg1 & E1 & E).
    destruct (nth_error seps t) as [s|] eqn:Hs; [|apply nth_error_None in Hs; lia].
    destruct (fwd_step t cg cg1 U s F Hs E1) as (U1 & F1).
    apply (IH (t + 1)%nat cg1 cg' U1); auto; [lia|]. replace (t + 1)%nat with (Datatypes.S t) by lia. exact E.
Qed.

(** ** The backward pass *)
Notation all := (fun _ : Z => true).
Record bwd (t : nat) (cg : cgraph S) (U : nat -> Z -> bool) : Prop := {
  b_ok : okst cg;
  b_cl : forall i C, (t <= i)%nat -> nth_error cls i = Some C -> is_min (uf all) C (cf cg i);
  b_ed : forall i s, (t <= i)%nat -> nth_error seps i = Some s -> is_min (uf all) s (ef cg i);
  b_items : forall i C, (i < t)%nat -> nth_error cls i = Some C -> forall x, In x C -> U i x = true;
  b_min : forall i C, (i < t)%nat -> nth_error cls i = Some C -> is_min (uf (U i)) C (cf cg i);
  b_todo : forall i s, (i < t)%nat -> nth_error seps i = Some s ->
    is_min (uf (U i)) s (ef cg i) /\ (forall x, U i x = true -> ~ In x s -> closed (U i) x)
}.

Lemma bwd_step t cg cg' U : (t < length seps)%nat -> bwd (t + 1) cg U -> passMessage cg t false true = Ok cg' -> bwd t cg' U.
Proof.
  intros Ht F E. pose proof (b_ok _ _ _ F) as Ok0.
  destruct (nth_error seps t) as [s|] eqn:Hs; [|apply nth_error_None in Hs; lia].
  destruct (pass_normal cg cg' t false s Ok0 E Hs) as (p & Cp & b & Fc & HCp & Hsp & Mb & Post).
  cbv zeta in Mb, Post.
  destruct (sep_facts t s Hs) as (e & Ct & He & HCt & Hcs & Hes & Ns).
  destruct Fc as (Htp & _ & _). destruct (cls_items t Ct HCt) as [NCt ICt].
  assert (Hst : incl s Ct) by (intros x Hx; apply Hcs; auto).
  pose proof (b_items _ _ _ F t Ct ltac:(lia) HCt) as Ut.
  destruct (b_todo _ _ _ F t s ltac:(lia) Hs) as [Me Cl].
  pose proof (b_min _ _ _ F t Ct ltac:(lia) HCt) as Mt.
  assert (Ms : is_min (uf all) s b).
  { eapply is_min_trans; [exact Hsp|exact (b_cl _ _ _ F p Cp ltac:(lia) HCp)|exact Mb]. }
  set (R := fun x => negb (U t x) || memb x s).
  assert (Inter : forall x, U t x = true -> R x = true -> In x s).
  { intros x Ux Rx. unfold R in Rx. rewrite Ux in Rx. apply memb_In. exact Rx. }
  assert (Split : forall w, uf all w = uf (U t) w + uf R w - uf (fun x => memb x s) w).
  { apply (uform_split scopes items Q J).
    - intros x _. unfold R. destruct (U t x); reflexivity.
    - intros x _. unfold R. destruct (U t x) eqn:Ux; [reflexivity|]. destruct (memb x s) eqn:M; [|reflexivity].
      apply memb_In in M. rewrite (Ut x (Hst x M)) in Ux. discriminate.
    - intros x y Hx Hy H1 H2 H3 H4. destruct (Req_dec (Q x y) 0) as [|HQ]; auto. exfalso.
      apply memb_false in H2. unfold R in H3. rewrite H4, orb_false_r in H3. apply negb_true_iff in H3.
      rewrite (Cl x H1 H2 y Hy HQ) in H3. discriminate. }
  assert (Mr : is_min (uf R) s (fun w => b w - ef cg t w + uf (fun x => memb x s) w)).
  { apply (is_min_rest (uf (U t)) (uf R) (uf (fun x => memb x s)) (U t) R s); auto.
    - apply uform_depends.
    - apply uform_depends.
    - intros w w' Hw. apply uform_agree. exact Hw.
    - eapply is_min_ext; [|reflexivity|exact Ms]. intros w. apply Split. }
  assert (Mn : is_min (uf all) Ct (fun w => cf cg t w + b w - ef cg t w)).
  { eapply is_min_ext.
    3:{ apply (is_min_split (uf R) (uf (U t)) (uf (fun x => memb x s)) R (U t) s Ct
                 (fun w => b w - ef cg t w + uf (fun x => memb x s) w) (cf cg t)); auto.
        - apply uform_depends.
        - apply uform_depends.
        - intros w w' Hw. apply uform_agree. exact Hw. }
    - intros w. cbv beta. rewrite Split. ring.
    - intros w. cbv beta. ring. }
  destruct (Post Ct HCt) as (Ok1 & Ct' & Cl' & Et' & El').
  { apply (is_min_positive scopes items Q J all); auto. }
  constructor; auto.
  - intros i C Hi HC. destruct (Nat.eq_dec i t) as [->|Hne].
    + rewrite HCt in HC. injection HC as <-. eapply is_min_ext; [reflexivity| |exact Mn]. intros w. rewrite Ct'. reflexivity.
    + eapply is_min_ext; [reflexivity| |exact (b_cl _ _ _ F i C ltac:(lia) HC)]. intros w. rewrite Cl'; auto.
  - intros i s' Hi Hs'. destruct (Nat.eq_dec i t) as [->|Hne].
    + rewrite Hs in Hs'. injection Hs' as <-. eapply is_min_ext; [reflexivity| |exact Ms]. intros w. rewrite Et'. reflexivity.
    + eapply is_min_ext; [reflexivity| |exact (b_ed _ _ _ F i s' ltac:(lia) Hs')]. intros w. rewrite El'; auto.
  - intros i C Hi HC. apply (b_items _ _ _ F i C); auto. lia.
  - intros i C Hi HC. eapply is_min_ext; [reflexivity| |exact (b_min _ _ _ F i C ltac:(lia) HC)]. intros w. rewrite Cl'; auto. lia.
  - intros i s' Hi Hs'. destruct (b_todo _ _ _ F i s' ltac:(lia) Hs') as [M K]. split; auto.
    eapply is_min_ext; [reflexivity| |exact M]. intros w. rewrite El'; auto. lia.
Qed.

Lemma bwd_all : forall k cg cg' U, (k <= length seps)%nat -> bwd k cg U ->
  foldM (fun c k => passMessage c k false true) (rev (seq 0 k)) cg = Ok cg' -> bwd 0 cg' U.
Proof.
  induction k as [|k IH]; intros cg cg' U Hk F E.
  - simpl in E. injection E as <-. exact F.
  - replace (Datatypes.S k) with (k + 1)%nat in * by lia. rewrite seq_app, rev_app_distr in E. simpl in E.
    apply bind_Ok in E. destruct E as (cg1 & E1 & E).
    apply (IH cg1 cg' U); auto; [lia|]. apply (bwd_step k cg cg1 U); auto. lia.
Qed.

Lemma fwd_bwd cg U : fwd (length seps) cg U -> bwd (length seps) cg U.
Proof.
  intros F. destruct (elim_lengths Hel) as [L1 L2].
  constructor.
  - apply F.
  - intros i C Hi HC.
    assert (i = length seps) by (assert (i < length cls)%nat by (apply nth_error_Some; congruence); lia). subst i.
    destruct (elim_last _ _ _ _ Hel Hwf) as (c & Hc & Hcov & _). rewrite HC in Hc. injection Hc as <-.
    eapply is_min_ext; [|reflexivity|exact (f_min _ _ _ F _ C HC)]. intros w. apply uform_ext; auto. intros x Hx.
    destruct (Hcov x Hx) as [H|H].
    + rewrite <- (firstn_all es), L2 in H. destruct (f_some _ _ _ F x H) as (j & Cj & Hj & HCj & Ux).
      assert (j = length seps) by (assert (j < length cls)%nat by (apply nth_error_Some; congruence); lia). subst j. exact Ux.
    + apply (f_items _ _ _ F _ C HC). exact H.
  - intros i s Hi Hs. assert (i < length seps)%nat by (apply nth_error_Some; congruence). lia.
  - intros i C Hi HC. apply (f_items _ _ _ F i C HC).
  - intros i C Hi HC. apply (f_min _ _ _ F i C HC).
  - intros i s Hi Hs. apply (f_done _ _ _ F i s Hi Hs).
Qed.

(** ** The start *)
Lemma fwd_start cg : okst cg -> (forall i C w, nth_error cls i = Some C -> cf cg i w = uf (fun x => memb x C) w) ->
  (forall i s w, nth_error seps i = Some s -> ef cg i w = uf (fun x => memb x s) w) ->
  exists U, fwd 0 cg U.
Proof.
  intros H HC He. exists (fun i x => match nth_error cls i with Some C => memb x C | None => false end).
  constructor; auto.
  - intros i C Hi. rewrite Hi. split; intros x Hx; [apply memb_In; auto|]. apply memb_In in Hx.
    apply (proj2 (cls_items i C Hi)). exact Hx.
  - intros i C Hi. rewrite Hi. intros w. split.
    + exists w. split; [apply agree_refl|]. symmetry. apply HC. exact Hi.
    + intros w' Aw. rewrite (HC i C w Hi). right. apply uform_agree. exact Aw.
  - intros i C x _ Hi Hx. rewrite Hi in Hx. apply memb_In in Hx. auto.
  - intros i C x Hi Hx Hn. rewrite Hi in Hx. apply memb_In in Hx. contradiction.
  - intros i j Ci Cj x _ _ _ _ Hx. destruct Hx.
  - intros x Hx. destruct Hx.
  - intros i s Hi. lia.
Qed.
End Graph.
