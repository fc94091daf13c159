(** Final forms of C05-C09. *)
From Coq Require Import List ZArith Bool Lia Arith Sorted Permutation.
From Verif Require Import Model.Base Model.Items Model.Graph Model.Mixed Model.ClusterGraph
  Spec.GraphSpec Spec.ElimSpec Spec.BeliefSpec Spec.TreeSpec
  Proofs.ListLemmas Proofs.ItemsLemmas Proofs.ElimLemmas Proofs.MixedLemmas Proofs.BuildLemmas.
Import ListNotations.

Section Main.
Variable S : sig.

Definition scopes_ok (fs : list (B S)) : Prop := forall f, In f fs -> NoDup (bscope S f).

Lemma scopes_map (fs : list (B S)) : map m_items (map mixed_of_belief fs) = map (bscope S) fs.
Proof. rewrite map_map. reflexivity. Qed.

Lemma concat_factors (fs : list (B S)) :
  concat (map factors (map mixed_of_belief fs)) = map (fun f => (f, false)) fs.
Proof. induction fs as [|f fs IH]; simpl; auto. now rewrite IH. Qed.

Lemma build_ok (fs : list (B S)) : scopes_ok fs ->
  exists cg items es cls seps, build fs = Ok cg /\
    shape (map (bscope S) fs) cg items es cls seps /\
    Permutation (concat (map factors (cg_clusters cg))) (map (fun f => (f, false)) fs).
Proof.
  intros Hok. destruct (build_shape S (map mixed_of_belief fs)) as (cg & items & es & cls & seps & E & Hsh & Hp).
  { intros b Hb. apply in_map_iff in Hb. destruct Hb as (f & <- & Hf). apply mwf_of_belief. auto. }
  rewrite scopes_map in Hsh. rewrite concat_factors in Hp.
  exists cg, items, es, cls, seps. auto.
Qed.

Section Sh.
Variables (scopes : list (list Z)) (cg : cgraph S) (items es : list Z) (cls seps : list (list Z)).
Hypothesis Hsh : shape scopes cg items es cls seps.

Let Hel := sh_elim _ _ _ _ _ _ _ Hsh.
Let Hwf := scopes_graph_wf scopes items.

Lemma sh_cl_items : cl_items cg = cls.
Proof. apply Hsh. Qed.

Lemma sh_sep_items : sep_items cg = seps.
Proof.
  unfold sep_items. apply nth_error_ext_all. intros i.
  destruct (nth_error seps i) as [s|] eqn:E.
  - destruct (sh_edge _ _ _ _ _ _ _ Hsh i s E) as (p & He & _).
    rewrite (map_nth_error _ _ _ He). reflexivity.
  - apply nth_error_None in E. apply nth_error_None. rewrite map_length.
    now rewrite (sh_nedges _ _ _ _ _ _ _ Hsh).
Qed.

Lemma sh_nclusters : length (cg_clusters cg) = Datatypes.S (length (cg_edges cg)).
Proof.
  rewrite <- (map_length m_items). rewrite (sh_clusters _ _ _ _ _ _ _ Hsh), (sh_nedges _ _ _ _ _ _ _ Hsh).
  apply (elim_lengths Hel).
Qed.

Lemma sh_edge_at i e : nth_error (cg_edges cg) i = Some e ->
  exists s p, nth_error seps i = Some s /\ first_containing cls i s p /\
    e = mkEdge (Z.of_nat i) (Z.of_nat p) (mixed_of_items s).
Proof.
  intros He. assert (Hi : (i < length seps)%nat).
  { rewrite <- (sh_nedges _ _ _ _ _ _ _ Hsh). apply nth_error_Some. congruence. }
  destruct (nth_error seps i) as [s|] eqn:Es; [|apply nth_error_None in Es; lia].
  destruct (sh_edge _ _ _ _ _ _ _ Hsh i s Es) as (p & He' & Hp). exists s, p.
  split; auto. split; auto. congruence.
Qed.

Lemma sh_parent i s : nth_error seps i = Some s ->
  exists p, parent cg i = Some p /\ first_containing cls i s p /\ sep_at cg i = s.
Proof.
  intros Hi. destruct (sh_edge _ _ _ _ _ _ _ Hsh i s Hi) as (p & He & Hp). exists p.
  unfold parent, sep_at. rewrite He, sh_sep_items. simpl. rewrite Nat2Z.id.
  split; auto. split; auto. now apply nth_error_nth.
Qed.

Lemma first_containing_lt i s p : first_containing cls i s p -> (i < p < length cls)%nat.
Proof.
  intros (H1 & (c & Hc & _) & _). split; auto. apply nth_error_Some. congruence.
Qed.

Lemma up_last s : forall n i c, (length cls - i <= n)%nat -> nth_error cls i = Some c -> incl s c ->
  exists r cr, up_path (parent cg) (sep_at cg) s i r /\ nth_error cls r = Some cr /\ incl s cr /\
    forall j cj, (r < j)%nat -> nth_error cls j = Some cj -> ~ incl s cj.
Proof.
  induction n as [|n IH]; intros i c Hn Hi Hs.
  - assert (i < length cls)%nat by (apply nth_error_Some; congruence). lia.
  - assert (Hil : (i < length cls)%nat) by (apply nth_error_Some; congruence).
    destruct (elim_lengths Hel) as [HL1 HL2].
    destruct (nth_error seps i) as [sep|] eqn:Esep.
    + destruct (inclb s sep) eqn:Ein.
      * apply inclb_incl in Ein. destruct (sh_parent i sep Esep) as (p & Hp & Hfc & Hsep).
        destruct (first_containing_lt _ _ _ Hfc) as [Hip Hpl].
        destruct Hfc as (_ & (cp & Hcp & Hscp) & _).
        destruct (IH p cp) as (r & cr & H1 & H2 & H3 & H4); auto.
        { lia. } { eapply incl_tran; eauto. }
        exists r, cr. split; auto. econstructor; eauto. now rewrite Hsep.
      * exists i, c. split; [constructor|]. split; auto. split; auto.
        intros j cj Hij Hj Hsj.
        destruct (elim_two _ _ _ _ Hel Hwf s i j c cj Hij Hi Hj Hs Hsj) as (sep' & E1 & E2).
        assert (sep' = sep) by congruence. subst. apply inclb_incl in E2. congruence.
    + exists i, c. split; [constructor|]. split; auto. split; auto.
      intros j cj Hij Hj. assert (j < length cls)%nat by (apply nth_error_Some; congruence).
      apply nth_error_None in Esep. lia.
Qed.

End Sh.

(** C05 *)
Lemma C05_main (fs : list (B S)) : scopes_ok fs ->
  exists cg, build fs = Ok cg /\
    (0 < nClusters cg)%nat /\ (nEdges cg = nClusters cg - 1)%nat /\
    (forall k e, nth_error (cg_edges cg) k = Some e ->
       e_first e = Z.of_nat k /\ (Z.of_nat k < e_second e < Z.of_nat (nClusters cg))%Z) /\
    (forall k, (k < nClusters cg)%nat ->
       up_path (parent cg) (sep_at cg) [] k (nClusters cg - 1)) /\
    (forall j k e, nth_error (cg_edges cg) j = Some e -> e_second e = Z.of_nat k -> (j < k)%nat).
Proof.
  intros Hok. destruct (build_ok fs Hok) as (cg & items & es & cls & seps & E & Hsh & _).
  exists cg. split; auto. unfold nClusters, nEdges.
  pose proof (sh_nclusters _ _ _ _ _ _ Hsh) as Hn.
  assert (Hlc : length cls = length (cg_clusters cg)).
  { rewrite <- (sh_clusters _ _ _ _ _ _ _ Hsh). apply map_length. }
  assert (He : forall k e, nth_error (cg_edges cg) k = Some e ->
       e_first e = Z.of_nat k /\ (Z.of_nat k < e_second e < Z.of_nat (length (cg_clusters cg)))%Z).
  { intros k e He. destruct (sh_edge_at _ _ _ _ _ _ Hsh k e He) as (s & p & _ & Hfc & ->).
    apply first_containing_lt in Hfc. simpl. split; auto. lia. }
  split; [lia|]. split; [lia|]. split; auto. split.
  - intros k Hk.
    destruct (nth_error cls k) as [c|] eqn:Ec; [|apply nth_error_None in Ec; lia].
    destruct (up_last _ _ _ _ _ _ Hsh [] (length cls - k) k c) as (r & cr & H1 & H2 & H3 & H4); auto.
    { intros ? []. }
    assert (r < length cls)%nat by (apply nth_error_Some; congruence).
    destruct (Nat.eq_dec r (length (cg_clusters cg) - 1)) as [<-|Hne]; auto.
    exfalso. destruct (nth_error cls (length (cg_clusters cg) - 1)) as [cl|] eqn:El;
      [|apply nth_error_None in El; lia].
    eapply H4; [|exact El|intros ? []]. lia.
  - intros j k e Hj Hk. apply He in Hj. lia.
Qed.

(** C06 *)
Lemma C06_main (fs : list (B S)) : scopes_ok fs ->
  exists cg, build fs = Ok cg /\
    Permutation (concat (map m_beliefs (cg_clusters cg))) fs /\
    (forall c f, In c (cg_clusters cg) -> In f (m_beliefs c) -> incl (bscope S f) (m_items c)) /\
    (forall c, In c (cg_clusters cg) ->
       length (m_inv c) = length (m_beliefs c) /\ forall v, In v (m_inv c) -> v = false).
Proof.
  intros Hok. destruct (build_ok fs Hok) as (cg & items & es & cls & seps & E & Hsh & Hp).
  exists cg. split; auto.
  pose proof (sh_wf _ _ _ _ _ _ _ Hsh) as Hwf.
  assert (Hfst : forall l : list (mixed S), (forall c, In c l -> mwf c) ->
     map fst (concat (map factors l)) = concat (map m_beliefs l)).
  { induction l as [|c l IH]; intros H; simpl; auto. rewrite map_app, IH by (intros; apply H; now right).
    f_equal. unfold factors. assert (Hc : mwf c) by (apply H; now left).
    pose proof (mwf_inv _ _ Hc) as HL. clear -HL. revert HL. generalize (m_inv c).
    induction (m_beliefs c) as [|b bs IH]; intros [|v vs] HL; simpl in *; try discriminate; auto.
    f_equal. apply IH. lia. }
  split; [|split].
  - rewrite <- Hfst by auto. apply (Permutation_map fst) in Hp. rewrite Hp.
    rewrite map_map. simpl. now rewrite map_id.
  - intros c f Hc Hf. now apply Hwf.
  - intros c Hc. split; [now apply Hwf|]. intros v Hv.
    apply In_nth_error in Hv. destruct Hv as [k Hk].
    assert (Hlt : (k < length (m_beliefs c))%nat).
    { rewrite <- (mwf_inv _ _ (Hwf c Hc)). apply nth_error_Some. congruence. }
    destruct (nth_error (m_beliefs c) k) as [b|] eqn:Eb; [|apply nth_error_None in Eb; lia].
    assert (Hin : In (b, v) (factors c)).
    { apply nth_error_In with k. unfold factors.
      clear -Eb Hk. revert k Eb Hk. generalize (m_inv c).
      induction (m_beliefs c) as [|x l IH]; intros [|y l'] [|k] H1 H2; simpl in *; try discriminate; auto.
      congruence. }
    assert (Hin' : In (b, v) (map (fun f => (f, false)) fs)).
    { eapply Permutation_in; [exact Hp|]. apply in_concat. exists (factors c). split; auto.
      now apply in_map. }
    apply in_map_iff in Hin'. destruct Hin' as (f & Ef & _). congruence.
Qed.

(** C07 *)
Lemma C07_main (fs : list (B S)) : scopes_ok fs ->
  exists cg, build fs = Ok cg /\
    (* separators are inside both ends *)
    (forall k sep, nth_error (sep_items cg) k = Some sep ->
       exists p c c', parent cg k = Some p /\ nth_error (cl_items cg) k = Some c /\
         nth_error (cl_items cg) p = Some c' /\ incl sep c /\ incl sep c') /\
    (* and are what the source cluster shares with later clusters *)
    (forall k sep c, nth_error (sep_items cg) k = Some sep -> nth_error (cl_items cg) k = Some c ->
       forall x, In x sep <-> In x c /\ exists j cj, (k < j)%nat /\
                   nth_error (cl_items cg) j = Some cj /\ In x cj) /\
    (* running intersection, for sets of items *)
    (forall set i ci, nth_error (cl_items cg) i = Some ci -> incl set ci ->
       exists r, forall j cj, nth_error (cl_items cg) j = Some cj -> incl set cj ->
         up_path (parent cg) (sep_at cg) set j r).
Proof.
  intros Hok. destruct (build_ok fs Hok) as (cg & items & es & cls & seps & E & Hsh & _).
  exists cg. split; auto.
  rewrite (sh_cl_items _ _ _ _ _ _ Hsh), (sh_sep_items _ _ _ _ _ _ Hsh).
  pose proof (sh_elim _ _ _ _ _ _ _ Hsh) as Hel.
  pose proof (scopes_graph_wf (map (bscope S) fs) items) as Hwf.
  destruct (elim_lengths Hel) as [HL1 HL2].
  split; [|split].
  - intros k sep Hk. destruct (sh_parent _ _ _ _ _ _ Hsh k sep Hk) as (p & Hp & Hfc & _).
    destruct Hfc as (Hkp & (c' & Hc' & Hs') & _).
    assert (k < length seps)%nat by (apply nth_error_Some; congruence).
    destruct (nth_error cls k) as [c|] eqn:Ec; [|apply nth_error_None in Ec; lia].
    exists p, c, c'. repeat (split; auto). eapply elim_sep_sub; eauto.
  - intros k sep c Hk Hc x. split.
    + intros Hx. split; [eapply elim_sep_sub; eauto|].
      destruct (elim_sep_later _ _ _ _ Hel Hwf k sep Hk) as (j & cj & H1 & H2 & H3).
      exists j, cj. auto.
    + intros [Hx (j & cj & Hj & Hcj & Hxj)].
      destruct (elim_two _ _ _ _ Hel Hwf [x] k j c cj) as (sep' & E1 & E2); auto;
        try (intros y [<-|[]]; auto).
      assert (sep' = sep) by congruence. subst. apply E2. now left.
  - intros set i ci Hi Hs.
    destruct (up_last _ _ _ _ _ _ Hsh set (length cls - i) i ci) as (r & cr & H1 & H2 & H3 & H4); auto.
    exists r. intros j cj Hj Hsj.
    destruct (up_last _ _ _ _ _ _ Hsh set (length cls - j) j cj) as (r' & cr' & H1' & H2' & H3' & H4'); auto.
    assert (r' = r); [|now subst].
    destruct (lt_eq_lt_dec r r') as [[Hlt|]|Hlt]; auto.
    + exfalso. eapply H4; eauto.
    + exfalso. eapply H4'; eauto.
Qed.

(** C08 *)
Lemma C08_count (fs : list (B S)) : scopes_ok fs ->
  exists cg, build fs = Ok cg /\
    forall set, (exists c, In c (cl_items cg) /\ incl set c) ->
      count_containing set (cl_items cg) = (count_containing set (sep_items cg) + 1)%nat.
Proof.
  intros Hok. destruct (build_ok fs Hok) as (cg & items & es & cls & seps & E & Hsh & _).
  exists cg. split; auto. intros set (c & Hc & Hs).
  rewrite (sh_cl_items _ _ _ _ _ _ Hsh), (sh_sep_items _ _ _ _ _ _ Hsh) in *.
  rewrite (elim_count _ _ _ _ (sh_elim _ _ _ _ _ _ _ Hsh) (scopes_graph_wf _ _) set).
  assert (existsb (inclb set) cls = true) as ->; auto.
  apply existsb_exists. exists c. split; auto. now apply inclb_incl.
Qed.

(** matrix form *)
Section Matrix.
Hypothesis L : group_laws S.
Notation add := (dadd S).
Notation zero := (dzero S).
Notation sum := (dsumS S).

Lemma sum_ext {A} (f g : A -> D S) l : (forall x, In x l -> f x = g x) -> sum (map f l) = sum (map g l).
Proof. intros H. f_equal. now apply map_ext_in. Qed.

Lemma sum_add {A} (f g : A -> D S) l :
  sum (map (fun x => add (f x) (g x)) l) = add (sum (map f l)) (sum (map g l)).
Proof.
  unfold dsumS. induction l as [|x l IH]; simpl.
  - symmetry. now apply gl_zero.
  - rewrite IH. now apply d_swap4.
Qed.

Lemma sum_zero {A} (l : list A) : sum (map (fun _ => zero) l) = zero.
Proof. unfold dsumS. induction l as [|x l IH]; simpl; auto. rewrite IH. now apply gl_zero. Qed.

Lemma sum_swap {A C} (f : A -> C -> D S) l1 l2 :
  sum (map (fun x => sum (map (f x) l2)) l1) = sum (map (fun y => sum (map (fun x => f x y) l1)) l2).
Proof.
  induction l1 as [|x l1 IH].
  - simpl. symmetry. change (dsumS S []) with zero. apply sum_zero.
  - cbn [map]. change (dsumS S (?a :: ?l)) with (add a (dsumS S l)).
    change (dsumS S (sum (map (f x) l2) :: map (fun x => sum (map (f x) l2)) l1))
      with (add (sum (map (f x) l2)) (sum (map (fun x => sum (map (f x) l2)) l1))).
    rewrite IH, <- sum_add. reflexivity.
Qed.

Lemma sum_entries_sum (m : list (list (D S))) : sum_entries m = sum (map sum m).
Proof. reflexivity. Qed.

Lemma sum_sub (items c : list Z) (f : Z -> D S) : NoDup items -> NoDup c -> incl c items ->
  sum (map f c) = sum (map (fun x => if existsb (Z.eqb x) c then f x else zero) items).
Proof.
  intros Hn Hc Hi.
  assert (Hp : Permutation c (filter (fun x => existsb (Z.eqb x) c) items)).
  { apply NoDup_Permutation; auto; [now apply NoDup_filter|]. intros x. rewrite filter_In. split.
    - intros Hx. split; auto. apply existsb_exists. exists x. split; auto. apply Z.eqb_refl.
    - intros [_ H]. apply existsb_exists in H. destruct H as (y & Hy & Ey). apply Z.eqb_eq in Ey. now subst. }
  rewrite (dsumS_perm S L _ _ (Permutation_map f Hp)).
  clear -L. induction items as [|x items IH]; simpl; auto.
  destruct (existsb (Z.eqb x) c); simpl.
  - unfold dsumS in *; simpl. now rewrite IH.
  - unfold dsumS in *; simpl. rewrite IH. symmetry. apply d_zero_l; exact L.
Qed.

Lemma inclb_pair x y c : inclb [x; y] c = existsb (Z.eqb x) c && existsb (Z.eqb y) c.
Proof. unfold inclb. simpl. now rewrite andb_true_r. Qed.

Lemma sum_entries_sub (items c : list Z) (T : Z -> Z -> D S) : NoDup items -> NoDup c -> incl c items ->
  sum_entries (getSparseMatrixSubset S T c) =
  sum (map (fun x => sum (map (fun y => if inclb [x; y] c then T x y else zero) items)) items).
Proof.
  intros Hn Hc Hi. rewrite sum_entries_sum. unfold getSparseMatrixSubset. rewrite map_map.
  rewrite (sum_sub items c) by auto. apply sum_ext. intros x _.
  destruct (existsb (Z.eqb x) c) eqn:Ex.
  - rewrite (sum_sub items c) by auto. apply sum_ext. intros y _.
    now rewrite inclb_pair, Ex.
  - transitivity (sum (map (fun _ => zero) items)); [symmetry; apply sum_zero|].
    apply sum_ext. intros y _. now rewrite inclb_pair, Ex.
Qed.

Lemma sum_count (P : list Z -> bool) (t : D S) (ls : list (list Z)) :
  sum (map (fun c => if P c then t else zero) ls) = Nat.iter (length (filter P ls)) (add t) zero.
Proof.
  unfold dsumS. induction ls as [|c ls IH]; simpl; auto. rewrite IH.
  destruct (P c); simpl; auto. now apply d_zero_l.
Qed.

Lemma C08_matrix_shape scopes (cg : cgraph S) items es cls seps (T : Z -> Z -> D S) :
  shape scopes cg items es cls seps ->
  (forall x y, In x items -> In y items ->
     (forall c, In c cls -> ~ (In x c /\ In y c)) -> T x y = zero) ->
  sum (map (fun c => sum_entries (getSparseMatrixSubset S T c)) cls) =
  add (sum_entries (getSparseMatrixSubset S T items))
      (sum (map (fun s => sum_entries (getSparseMatrixSubset S T s)) seps)).
Proof.
  intros Hsh HT.
  pose proof (sh_elim _ _ _ _ _ _ _ Hsh) as Hel.
  pose proof (scopes_graph_wf scopes items) as Hwf.
  pose proof (sh_sorted _ _ _ _ _ _ _ Hsh) as Hso.
  assert (Hn : NoDup items) by now apply sorted_lt_NoDup.
  assert (Hcl : forall c, In c cls -> NoDup c /\ incl c items).
  { intros c Hc. split; [eapply elim_NoDup_clusters; eauto|].
    exact (elim_incl _ _ _ _ Hel Hwf c Hc). }
  assert (Hse : forall s, In s seps -> NoDup s /\ incl s items).
  { intros s Hs. apply In_nth_error in Hs. destruct Hs as [i Hi].
    destruct (elim_lengths Hel) as [HL1 HL2].
    assert (i < length seps)%nat by (apply nth_error_Some; congruence).
    destruct (nth_error es i) as [e|] eqn:Ee; [|apply nth_error_None in Ee; lia].
    destruct (elim_cluster _ _ _ _ Hel Hwf i e s Ee Hi) as (c & H1 & H2 & H3 & H4 & H5).
    split; auto. intros x Hx. apply nth_error_In in H1. apply (proj2 (Hcl c H1)). apply H2. auto. }
  rewrite (sum_ext (fun c => sum_entries (getSparseMatrixSubset S T c))
     (fun c => sum (map (fun x => sum (map (fun y => if inclb [x; y] c then T x y else zero) items)) items))).
  2:{ intros c Hc. destruct (Hcl c Hc). now apply sum_entries_sub. }
  rewrite (sum_ext (fun s => sum_entries (getSparseMatrixSubset S T s))
     (fun c => sum (map (fun x => sum (map (fun y => if inclb [x; y] c then T x y else zero) items)) items)) seps).
  2:{ intros s Hs. destruct (Hse s Hs). now apply sum_entries_sub. }
  rewrite (sum_entries_sub items items) by (auto using incl_refl).
  rewrite !(sum_swap (fun c x => sum (map (fun y => if inclb [x; y] c then T x y else zero) items))).
  rewrite <- sum_add. apply sum_ext. intros x Hx.
  rewrite !(sum_swap (fun c y => if inclb [x; y] c then T x y else zero)).
  rewrite <- sum_add. apply sum_ext. intros y Hy.
  rewrite !(sum_count (inclb [x; y])).
  assert (inclb [x; y] items = true) as ->.
  { apply inclb_incl. intros z [<-|[<-|[]]]; auto. }
  pose proof (elim_count _ _ _ _ Hel Hwf [x; y]) as Hc. unfold count_containing in Hc. rewrite Hc.
  destruct (existsb (inclb [x; y]) cls) eqn:Ex.
  - rewrite Nat.add_1_r. reflexivity.
  - rewrite Nat.add_0_r.
    assert (T x y = zero) as ->.
    { apply HT; auto. intros c Hc' [H1 H2].
      assert (existsb (inclb [x; y]) cls = true); [|congruence].
      apply existsb_exists. exists c. split; auto. apply inclb_incl.
      intros z [<-|[<-|[]]]; auto. }
    symmetry. now apply d_zero_l.
Qed.

End Matrix.

Lemma C08_matrix (fs : list (B S)) : scopes_ok fs -> group_laws S ->
  exists cg items, build fs = Ok cg /\
    StronglySorted Z.lt items /\ (forall x, In x items <-> exists f, In f fs /\ In x (bscope S f)) /\
    forall T, (forall x y, In x items -> In y items ->
                (forall c, In c (cl_items cg) -> ~ (In x c /\ In y c)) -> T x y = dzero S) ->
      dsumS S (map (fun c => sum_entries (getSparseMatrixSubset S T c)) (cl_items cg)) =
      dadd S (sum_entries (getSparseMatrixSubset S T items))
             (dsumS S (map (fun s => sum_entries (getSparseMatrixSubset S T s)) (sep_items cg))).
Proof.
  intros Hok L. destruct (build_ok fs Hok) as (cg & items & es & cls & seps & E & Hsh & _).
  exists cg, items. split; auto. split; [apply Hsh|]. split.
  - intros x. rewrite (sh_items _ _ _ _ _ _ _ Hsh). split.
    + intros (s & Hs & Hx). apply in_map_iff in Hs. destruct Hs as (f & <- & Hf). eauto.
    + intros (f & Hf & Hx). exists (bscope S f). split; auto. now apply in_map.
  - intros T HT. rewrite (sh_cl_items _ _ _ _ _ _ Hsh), (sh_sep_items _ _ _ _ _ _ Hsh) in *.
    eapply C08_matrix_shape; eauto.
Qed.

(** C09 *)
Lemma fold_max_spec : forall (l : list (mixed S)) w0, (0 <= w0)%Z ->
  let w := fold_left (fun w c => Z.max w (Z.of_nat (length (m_items c)))) l w0 in
  (w0 <= w)%Z /\ (forall c, In c l -> (Z.of_nat (length (m_items c)) <= w)%Z) /\
  (w = w0 \/ exists c, In c l /\ w = Z.of_nat (length (m_items c))).
Proof.
  induction l as [|c l IH]; intros w0 H; simpl.
  - split; [lia|]. split; [intros ? []|auto].
  - destruct (IH (Z.max w0 (Z.of_nat (length (m_items c))))) as (H1 & H2 & H3); [lia|].
    split; [lia|]. split.
    + intros c' [<-|Hc']; auto. lia.
    + destruct H3 as [H3|(c' & Hc' & H3)].
      * rewrite H3. destruct (Z.max_spec w0 (Z.of_nat (length (m_items c)))) as [[_ ->]|[_ ->]]; auto.
        right. exists c. auto.
      * right. exists c'. auto.
Qed.

Lemma C09_main (fs : list (B S)) : scopes_ok fs ->
  exists cg items es, build fs = Ok cg /\
    StronglySorted Z.lt items /\ (forall x, In x items <-> exists f, In f fs /\ In x (bscope S f)) /\
    elim (scopes_graph (map (bscope S) fs) items) es (cl_items cg) (sep_items cg) /\
    (forall c, In c (cl_items cg) -> (Z.of_nat (length c) <= width cg)%Z) /\
    (exists c, In c (cl_items cg) /\ width cg = Z.of_nat (length c)) /\
    (forall f, In f fs -> (Z.of_nat (length (bscope S f)) <= width cg)%Z) /\
    (width cg <= Z.of_nat (length items))%Z.
Proof.
  intros Hok. destruct (build_ok fs Hok) as (cg & items & es & cls & seps & E & Hsh & _).
  pose proof (sh_elim _ _ _ _ _ _ _ Hsh) as Hel.
  pose proof (scopes_graph_wf (map (bscope S) fs) items) as Hwf.
  exists cg, items, es. split; auto. split; [apply Hsh|].
  assert (Hitems : forall x, In x items <-> exists f, In f fs /\ In x (bscope S f)).
  { intros x. rewrite (sh_items _ _ _ _ _ _ _ Hsh). split.
    + intros (s & Hs & Hx). apply in_map_iff in Hs. destruct Hs as (f & <- & Hf). eauto.
    + intros (f & Hf & Hx). exists (bscope S f). split; auto. now apply in_map. }
  split; auto.
  destruct (fold_max_spec (cg_clusters cg) 0 (Z.le_refl 0)) as (H1 & H2 & H3). fold (width cg) in *.
  assert (Hcl : forall c, In c cls -> (Z.of_nat (length c) <= width cg)%Z).
  { intros c Hc. rewrite <- (sh_clusters _ _ _ _ _ _ _ Hsh) in Hc. apply in_map_iff in Hc.
    destruct Hc as (m & <- & Hm). auto. }
  assert (Hex : exists c, In c cls /\ width cg = Z.of_nat (length c)).
  { destruct H3 as [H3|(m & Hm & H3)].
    - assert (Hne : cls <> []) by (eapply elim_nonempty; eauto).
      destruct cls as [|c cls']; [congruence|]. exists c. split; [now left|].
      specialize (Hcl c (or_introl eq_refl)). lia.
    - exists (m_items m). split; auto. rewrite <- (sh_clusters _ _ _ _ _ _ _ Hsh). now apply in_map. }
  rewrite (sh_cl_items _ _ _ _ _ _ Hsh), (sh_sep_items _ _ _ _ _ _ Hsh).
  split; auto. split; auto. split; auto. split.
  - intros f Hf. destruct (elim_clique _ _ _ _ Hel Hwf (bscope S f)) as (c & Hc & Hi).
    + intros x Hx. simpl. apply Hitems. eauto.
    + intros x y Hx Hy Hxy. simpl. split; auto. exists (bscope S f). split; auto. now apply in_map.
    + specialize (Hcl c Hc). apply NoDup_incl_length in Hi; [lia|auto].
  - destruct Hex as (c & Hc & ->).
    pose proof (elim_incl _ _ _ _ Hel Hwf c Hc) as Hi. simpl in Hi.
    apply NoDup_incl_length in Hi; [lia|]. eapply elim_NoDup_clusters; eauto. apply Hsh.
Qed.

End Main.
Arguments scopes_ok {S}.
