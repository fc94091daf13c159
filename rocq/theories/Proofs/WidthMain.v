(** C59: greedy elimination finds the smallest width when that is at most three. *)
From Coq Require Import List ZArith Bool Lia Arith Sorted.
From Verif Require Import Model.Base Model.Mixed Model.ClusterGraph Spec.GraphSpec Spec.ElimSpec Spec.TreeSpec
  Spec.WidthSpec Proofs.ItemsLemmas Proofs.ElimLemmas Proofs.BuildLemmas Proofs.ClusterMain.
Import ListNotations.

(** [bags] is a junction tree for the remaining items of [a]. *)
Definition fits (a : agraph) (bags : list (list Z)) : Prop :=
  (forall x, In x (a_items a) -> exists b, In b bags /\ In x b) /\
  (forall x y, In x (a_items a) -> In y (a_items a) -> a_adj a x y ->
     exists b, In b bags /\ In x b /\ In y b).

Definition adj_dec (a : agraph) : Prop := forall x y, a_adj a x y \/ ~ a_adj a x y.

Lemma neighbours_exist a x : NoDup (a_items a) -> adj_dec a -> exists l, a_neighbours a x l.
Proof.
  intros Hn Hd. unfold a_neighbours. induction (a_items a) as [|y l IH].
  - exists []. split; [constructor|]. simpl. tauto.
  - inversion Hn; subst. destruct (IH H2) as (l' & N & H). destruct (Hd x y) as [A|A].
    + exists (y :: l'). split.
      * constructor; auto. intros Hy. apply H in Hy. tauto.
      * intros z. simpl. rewrite H. intuition (subst; auto).
    + exists l'. split; auto. intros z. rewrite H. simpl. intuition (subst; tauto).
Qed.

(** A graph with a junction tree has an item with few neighbours. *)
Lemma low_degree a bags w : wf a -> NoDup (a_items a) -> adj_dec a ->
  a_items a <> [] -> junction_tree bags -> fits a bags -> bags_within bags w ->
  exists x n, In x (a_items a) /\ a_degree a x n /\ (S n <= w)%nat.
Proof.
  intros Hwf Hn Hd Hne J. revert Hne. induction J as [b|b bs p J IH Hp HR]; intros Hne F W.
  - destruct (a_items a) as [|x l] eqn:E; [congruence|].
    destruct (neighbours_exist a x) as (nb & Hnb); auto; [now rewrite E|].
    exists x, (length nb). split; [now left|]. split; [exists nb; auto|].
    apply Nat.le_trans with (length b); [|apply W; now left].
    change (length (x :: nb) <= length b)%nat. apply NoDup_incl_length.
    + constructor; [|apply Hnb]. intros H. apply Hnb in H. destruct H as [_ H].
      exact (wf_irr _ Hwf _ H).
    + assert (G : forall y, In y (a_items a) -> In y b).
      { intros y Hy. destruct (proj1 F y Hy) as (b' & [<-|[]] & H). exact H. }
      intros y [<-|Hy]; apply G; [rewrite E; now left|]. apply Hnb in Hy. tauto.
  - assert (D : (exists x, In x b /\ In x (a_items a) /\ forall c, In c bs -> ~ In x c) \/
                (forall x, In x b -> In x (a_items a) -> exists c, In c bs /\ In x c)).
    { clear - b. induction b as [|y b IHb]; [right; intros x []|].
      destruct IHb as [(x & H1 & H2)|H].
      - left. exists x. simpl. tauto.
      - destruct (in_dec Z.eq_dec y (a_items a)) as [Hy|Hy].
        + destruct (in_dec Z.eq_dec y (concat bs)) as [Hc|Hc].
          * right. intros x [<-|Hx] Hi; auto. apply in_concat in Hc.
            destruct Hc as (c & ? & ?). eauto.
          * left. exists y. split; [now left|]. split; auto. intros c Hc' Hy'.
            apply Hc, in_concat. eauto.
        + right. intros x [<-|Hx] Hi; [tauto|]. auto. }
    destruct D as [(x & Hxb & Hxi & Hx)|D].
    + destruct (neighbours_exist a x Hn Hd) as (nb & Hnb).
      exists x, (length nb). split; auto. split; [exists nb; auto|].
      apply Nat.le_trans with (length b); [|apply W; now left].
      change (length (x :: nb) <= length b)%nat. apply NoDup_incl_length.
      * constructor; [|apply Hnb]. intros H. apply Hnb in H. destruct H as [_ H].
        exact (wf_irr _ Hwf _ H).
      * intros y [<-|Hy]; auto. apply Hnb in Hy. destruct Hy as [Hy A].
        destruct (proj2 F x y Hxi Hy A) as (c & [<-|Hc] & H1 & H2); auto.
        exfalso. exact (Hx c Hc H1).
    + apply IH; auto.
      * split.
        -- intros x Hx. destruct (proj1 F x Hx) as (c & [<-|Hc] & H); [|now exists c].
           apply D; auto.
        -- intros x y Hx Hy A. destruct (proj2 F x y Hx Hy A) as (c & [<-|Hc] & H1 & H2); [|now exists c].
           exists p. split; auto. destruct (D x H1 Hx) as (c1 & ? & ?).
           destruct (D y H2 Hy) as (c2 & ? & ?). split; [apply (HR x c1)|apply (HR y c2)]; auto.
      * intros c Hc. apply W. now right.
Qed.

(** Renaming one item to another in all bags. *)
Definition ren (e a x : Z) : Z := if Z.eqb x e then a else x.
Definition ren_bags (e a : Z) (bags : list (list Z)) : list (list Z) := map (map (ren e a)) bags.

Lemma ren_In e a b x : In x (map (ren e a) b) <-> (x = a /\ (In e b \/ In a b)) \/ (x <> a /\ x <> e /\ In x b) \/ False.
Proof.
  rewrite in_map_iff. unfold ren. split.
  - intros (y & <- & Hy). destruct (Z.eqb_spec y e); subst; [auto|].
    destruct (Z.eq_dec y a); subst; auto.
  - intros [(-> & [H|H])|[(H1 & H2 & H3)|[]]].
    + exists e. rewrite Z.eqb_refl. auto.
    + destruct (Z.eq_dec a e) as [->|N]; [exists e; rewrite Z.eqb_refl; auto|].
      exists a. destruct (Z.eqb_spec a e); [tauto|auto].
    + exists x. destruct (Z.eqb_spec x e); [tauto|auto].
Qed.

Lemma jt_ren e a bags : junction_tree bags ->
  (exists b, In b bags /\ In e b /\ In a b) \/
  ~ ((exists b, In b bags /\ In e b) /\ (exists b, In b bags /\ In a b)) ->
  junction_tree (ren_bags e a bags).
Proof.
  induction 1 as [b|b bs p J IH Hp HR]; intros C; [constructor|].
  unfold ren_bags in *. simpl. assert (C' := C).
  apply jt_cons with (map (ren e a) p).
  - apply IH. destruct C as [(c & [<-|Hc] & H1 & H2)|C].
    + destruct (in_dec Z.eq_dec e (concat bs)) as [He|He].
      * destruct (in_dec Z.eq_dec a (concat bs)) as [Ha|Ha].
        -- left. exists p. apply in_concat in He, Ha. destruct He as (c1 & ? & ?).
           destruct Ha as (c2 & ? & ?). split; auto. split; [apply (HR e c1)|apply (HR a c2)]; auto.
        -- right. intros (_ & c & H3 & H4). apply Ha, in_concat. eauto.
      * right. intros ((c & H3 & H4) & _). apply He, in_concat. eauto.
    + left. eauto.
    + right. intros ((c1 & ? & ?) & (c2 & ? & ?)). apply C. split; [exists c1|exists c2]; simpl; auto.
  - apply in_map. auto.
  - intros x c' Hx Hc' Hxc. apply in_map_iff in Hc'. destruct Hc' as (c & <- & Hc).
    rewrite ren_In in *.
    destruct Hx as [(-> & Hx)|[(X1 & X2 & Hx)|[]]].
    + destruct Hxc as [(_ & Hxc)|[(N & _)|[]]]; [|tauto].
      left. split; auto. destruct C as [(d & Hd & D1 & D2)|C].
      * destruct Hd as [<-|Hd].
        -- destruct Hxc; [left; apply (HR e c)|right; apply (HR a c)]; auto.
        -- destruct Hx; [left; apply (HR e d)|right; apply (HR a d)]; auto.
      * destruct Hx as [Hx|Hx]; destruct Hxc as [Hy|Hy].
        -- left. apply (HR e c); auto.
        -- exfalso. apply C. split; [exists b|exists c]; simpl; auto.
        -- exfalso. apply C. split; [exists c|exists b]; simpl; auto.
        -- right. apply (HR a c); auto.
    + destruct Hxc as [(-> & _)|[(_ & _ & Hxc)|[]]]; [tauto|].
      right. left. split; auto. split; auto. apply (HR x c); auto.
Qed.

Lemma within_ren e a bags w : bags_within bags w -> bags_within (ren_bags e a bags) w.
Proof.
  intros H b Hb. apply in_map_iff in Hb. destruct Hb as (c & <- & Hc). rewrite map_length. auto.
Qed.

Lemma fits_step a e sep bags w : wf a -> In e (a_items a) -> a_neighbours a e sep ->
  (length sep <= 2)%nat -> junction_tree bags -> fits a bags -> bags_within bags w ->
  exists bags', junction_tree bags' /\ fits (a_remove (a_connect a sep) e) bags' /\ bags_within bags' w.
Proof.
  intros Hwf He Hnb Hlen J F W.
  destruct sep as [|x [|y [|z l]]]; [| | |simpl in Hlen; lia].
  - exists bags. split; auto. split; auto. split.
    + intros u Hu. apply a_remove_In in Hu. apply F. apply Hu.
    + intros u v Hu Hv [A|(_ & [] & _)]. apply a_remove_In in Hu, Hv. apply F; tauto.
  - exists bags. split; auto. split; auto. split.
    + intros u Hu. apply a_remove_In in Hu. apply F. apply Hu.
    + intros u v Hu Hv [A|(N & [<-|[]] & [<-|[]])]; [|tauto].
      apply a_remove_In in Hu, Hv. apply F; tauto.
  - exists (ren_bags e x bags).
    assert (Hx : In x (a_items a) /\ a_adj a e x) by (apply Hnb; simpl; auto).
    assert (Hy : In y (a_items a) /\ a_adj a e y) by (apply Hnb; simpl; auto).
    split; [|split; [|now apply within_ren]].
    + apply jt_ren; auto. left. apply F; tauto.
    + assert (IN : forall u c, u <> e -> In u c -> In u (map (ren e x) c)).
      { intros u c Hu Hc. apply ren_In. destruct (Z.eq_dec u x); subst; tauto. }
      assert (P : exists c, In c (ren_bags e x bags) /\ In x c /\ In y c).
      { destruct (proj2 F e y He (proj1 Hy) (proj2 Hy)) as (c & Hc & H1 & H2).
        exists (map (ren e x) c). split; [now apply in_map|]. split.
        - apply ren_In. auto.
        - apply IN; auto. intros ->. exact (wf_irr _ Hwf _ (proj2 Hy)). }
      split.
      * intros u Hu. apply a_remove_In in Hu. destruct Hu as [Hu Hne].
        destruct (proj1 F u Hu) as (c & Hc & H). exists (map (ren e x) c).
        split; [now apply in_map|]. auto.
      * intros u v Hu Hv A. apply a_remove_In in Hu, Hv. simpl in Hu, Hv.
        destruct A as [A|(N & Hu' & Hv')].
        -- destruct (proj2 F u v (proj1 Hu) (proj1 Hv) A) as (c & Hc & H1 & H2).
           exists (map (ren e x) c). split; [now apply in_map|].
           split; apply IN; tauto.
        -- destruct P as (c & Hc & P1 & P2). exists c. split; auto.
           destruct Hu' as [<-|[<-|[]]]; destruct Hv' as [<-|[<-|[]]]; tauto.
Qed.

Lemma dec_step a e sep : adj_dec a -> adj_dec (a_remove (a_connect a sep) e).
Proof.
  intros H x y. simpl. destruct (H x y) as [A|A]; [auto|].
  destruct (Z.eq_dec x y), (in_dec Z.eq_dec x sep), (in_dec Z.eq_dec y sep); tauto.
Qed.

Lemma elim_within a es cs ss : elim a es cs ss -> wf a -> NoDup (a_items a) -> adj_dec a ->
  forall bags w, junction_tree bags -> fits a bags -> bags_within bags w -> (w <= 3)%nat ->
  bags_within cs w.
Proof.
  induction 1 as [a Hc|a e sep cl es cs ss Hnc Hmin Hnb Hsort Hcl Hel IH];
    intros Hwf Hn Hd bags w J F W W3 c Hc'.
  - destruct Hc' as [<-|[]]. destruct (a_items a) as [|x0 l0] eqn:E; [simpl; lia|].
    rewrite <- E in *.
    destruct (low_degree a bags w Hwf Hn Hd) as (x & n & Hx & (nb & Hnb & <-) & Hle); auto.
    { rewrite E. discriminate. }
    apply Nat.le_trans with (S (length nb)); auto. change (S (length nb)) with (length (x :: nb)).
    apply NoDup_incl_length; auto. intros y Hy. destruct (Z.eq_dec x y) as [->|N]; [now left|right].
    apply Hnb. split; auto.
  - assert (Hin := first_min_In _ _ Hmin).
    assert (Hlen : (S (length sep) <= w)%nat).
    { destruct (low_degree a bags w Hwf Hn Hd) as (x & n & Hx & Hdeg & Hle); auto.
      { intros E. rewrite E in Hin. destruct Hin. }
      destruct Hmin as (l1 & l2 & m & E & (nb & Nb & <-) & M1 & M2).
      assert (length nb = length sep) as <-.
      { apply Nat.le_antisymm; apply NoDup_incl_length; try apply Nb; try apply Hnb;
          intros z Hz; [apply Hnb; now apply Nb|apply Nb; now apply Hnb]. }
      rewrite E in Hx. apply in_app_or in Hx. destruct Hx as [Hx|[<-|Hx]].
      - specialize (M1 _ _ Hx Hdeg). lia.
      - destruct Hdeg as (nb' & Nb' & <-).
        assert (length nb <= length nb')%nat; [|lia].
        apply NoDup_incl_length; [apply Nb|]. intros z Hz. apply Nb'. now apply Nb.
      - specialize (M2 _ _ Hx Hdeg). lia. }
    destruct Hc' as [<-|Hc'].
    + apply Nat.le_trans with (length (e :: sep)); [|simpl; lia].
      apply NoDup_incl_length.
      * clear - Hsort. induction Hsort as [|x l S IH HF]; constructor; auto.
        intros Hx. rewrite Forall_forall in HF. specialize (HF _ Hx). lia.
      * intros z Hz. apply Hcl in Hz. simpl. intuition.
    + destruct (fits_step a e sep bags w) as (bags' & J' & F' & W'); auto; [lia|].
      eapply IH; eauto.
      * eapply wf_elim_step; eauto.
      * simpl. now apply NoDup_filter.
      * now apply dec_step.
Qed.

(** The clusters themselves form a junction tree. *)
Lemma elim_jt a es cs ss : elim a es cs ss -> wf a -> junction_tree cs.
Proof.
  induction 1 as [a Hc|a e sep cl es cs ss Hnc Hmin Hnb Hsort Hcl Hel IH]; intros Hwf; [constructor|].
  pose proof (wf_elim_step _ _ _ Hwf Hnb) as Hwf'.
  assert (Hel' : elim a (e :: es) (cl :: cs) (sep :: ss)) by (econstructor; eauto).
  destruct (elim_sep_later _ _ _ _ Hel' Hwf 0 sep eq_refl) as (j & cj & H1 & H2 & H3).
  destruct j as [|j]; [lia|]. simpl in H2. apply nth_error_In in H2.
  apply jt_cons with cj; auto.
  intros x c Hx Hc Hxc. apply Hcl in Hx. destruct Hx as [->|Hx]; auto.
  exfalso. apply (elim_incl _ _ _ _ Hel Hwf') in Hc. apply Hc, a_remove_In in Hxc. tauto.
Qed.

Lemma scopes_adj_dec scopes items : adj_dec (scopes_graph scopes items).
Proof.
  intros x y. simpl. destruct (Z.eq_dec x y) as [->|N]; [tauto|].
  assert (D : (exists s, In s scopes /\ In x s /\ In y s) \/ ~ (exists s, In s scopes /\ In x s /\ In y s)).
  { induction scopes as [|s l IH]; [right; intros (s & [] & _)|].
    destruct IH as [(t & H1 & H2)|H]; [left; exists t; simpl; tauto|].
    destruct (in_dec Z.eq_dec x s), (in_dec Z.eq_dec y s);
      [left; exists s; simpl; auto|right|right|right];
      intros (t & [<-|Ht] & H1 & H2); eauto. }
  tauto.
Qed.

Section W.
Context {S : sig}.
Implicit Types fs : list (B S).

Lemma C59_main fs : (forall f, In f fs -> NoDup (bscope S f)) ->
  exists cg, build fs = Ok cg /\
    junction_tree (cl_items cg) /\
    covers (cl_items cg) (map (bscope S) fs) /\
    (exists c, In c (cl_items cg) /\ width cg = Z.of_nat (length c)) /\
    forall bags w, junction_tree bags -> covers bags (map (bscope S) fs) ->
      bags_within bags w -> (w <= 3)%nat -> (width cg <= Z.of_nat w)%Z.
Proof.
  intros Hs. destruct (C09_main S fs Hs) as (cg & items & es & HB & Hso & Hit & Hel & Hw1 & Hw2 & Hw3 & Hw4).
  exists cg. split; auto. assert (Hwf := scopes_graph_wf (map (bscope S) fs) items).
  split; [eapply elim_jt; eauto|]. split; [|split; auto].
  - intros s Hin.
    destruct (elim_clique _ _ _ _ Hel Hwf s) as (c & Hc & Hi).
    + intros x Hx. simpl. apply Hit. apply in_map_iff in Hin. destruct Hin as (f & <- & Hf). eauto.
    + intros x y Hx Hy N. simpl. split; auto. exists s. auto.
    + exists c. auto.
  - intros bags w J C W W3. destruct Hw2 as (c & Hc & ->). apply Nat2Z.inj_le.
    eapply (elim_within _ _ _ _ Hel Hwf); eauto.
    + simpl. now apply sorted_lt_NoDup.
    + apply scopes_adj_dec.
    + split; simpl.
      * intros x Hx. apply Hit in Hx. destruct Hx as (f & Hf & Hx).
        destruct (C (bscope S f)) as (b & Hb & Hi); [now apply in_map|]. exists b. auto.
      * intros x y _ _ (_ & s & Hin & Hx & Hy). destruct (C s Hin) as (b & Hb & Hi).
        exists b. auto.
Qed.
End W.
