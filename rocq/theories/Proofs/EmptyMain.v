From Coq Require Import String List ZArith Bool Arith Lia Permutation Sorted Reals Lra.
From Verif Require Import Model.Base Model.Family Model.GLMM Model.SplitFrame Spec.Numbers Spec.FamilySpec Spec.GLMMSpec Spec.SplitSpec Spec.EmptySpec
  Proofs.ListLemmas Proofs.GLMMLemmas Proofs.GLMMMain Proofs.SplitLemmas Proofs.SplitMain Proofs.LfunMain.
Import ListNotations.
Local Open Scope R_scope.
Notation length := List.length.

(** * The first that fits *)
Lemma find_filter {A} (p keep : A -> bool) l : (forall x, In x l -> p x = true -> keep x = true) -> find p (filter keep l) = find p l.
Proof.
  induction l as [|x l IH]; intros H; [reflexivity|]. cbn [filter find]. destruct (p x) eqn:Px.
  - rewrite (H x) by (auto; now left). cbn [find]. now rewrite Px.
  - destruct (keep x); cbn [find]; rewrite ?Px; apply IH; intros y Hy; apply H; now right.
Qed.
Lemma find_unique {A} (eqb : A -> A -> bool) (E : forall x y, eqb x y = true <-> x = y) p l : find p (unique eqb l) = find p l.
Proof.
  induction l as [|x l IH]; [reflexivity|]. cbn [unique find]. destruct (p x) eqn:Px; [reflexivity|]. rewrite <- IH.
  apply find_filter. intros y _ Py. destruct (eqb x y) eqn:Q; [|reflexivity]. apply E in Q. subst. congruence.
Qed.
Lemma find_map {A B} (f : A -> B) p l : find p (map f l) = option_map f (find (fun x => p (f x)) l).
Proof. induction l as [|x l IH]; [reflexivity|]. cbn [map find]. destruct (p (f x)); [reflexivity|exact IH]. Qed.
Lemma find_least p l s : StronglySorted lt l -> In s l -> p s = true -> (forall s', In s' l -> p s' = true -> (s <= s')%nat) -> find p l = Some s.
Proof.
  induction 1 as [|x l Hs IH F]; intros I Ps L; [destruct I|]. cbn [find]. destruct (p x) eqn:Px.
  - pose proof (L x (or_introl eq_refl) Px). destruct I as [->|I]; [reflexivity|]. rewrite Forall_forall in F. pose proof (F s I). lia.
  - destruct I as [->|I]; [congruence|]. apply IH; auto. intros s' I'. apply L. now right.
Qed.

Lemma loop_find act : forall cliques obs ext rem, NoDup obs -> add_obs_loop cliques act obs = (ext, rem) ->
  forall C os o, In (C, os) ext -> In o os -> find (fun C => SplitLemmas.fits act C o) cliques = Some C.
Proof.
  induction cliques as [|C cliques IH]; intros obs ext rem D E.
  - cbn in E. injection E as <- <-. intros C os o [].
  - cbn [add_obs_loop] in E. rewrite setdiff_filter in E by exact D.
    set (here := snd (add_obs_C C act obs)) in *.
    assert (Hh : here = filter (SplitLemmas.fits act C) obs) by reflexivity.
    destruct (add_obs_loop cliques act (filter (fun v => negb (is_element v here)) obs)) as [ext' rem'] eqn:E'.
    injection E as <- <-. intros C1 os o Hin Ho. cbn [find]. destruct Hin as [Hin|Hin].
    + unfold add_obs_C in Hin. injection Hin as <- <-. apply filter_In in Ho. destruct Ho as [_ Ho]. 
      change (SplitLemmas.fits act C o = true) in Ho. now rewrite Ho.
    + assert (Hn : SplitLemmas.fits act C o = false).
      { destruct (loop_spec _ _ _ _ _ (NoDup_filter _ D) E') as (_ & Pm & _ & _).
        assert (I : In o (filter (fun v => negb (is_element v here)) obs)).
        { rewrite <- Pm. apply in_or_app. left. apply in_concat. exists os. split; [now apply (in_map snd) in Hin|exact Ho]. }
        apply filter_In in I. destruct I as [I N]. destruct (SplitLemmas.fits act C o) eqn:Q; [|reflexivity]. exfalso.
        apply negb_true_iff, is_element_not in N. apply N. rewrite Hh. now apply filter_In. }
      rewrite Hn. exact (IH _ _ _ (NoDup_filter _ D) E' C1 os o Hin Ho).
Qed.

Lemma sorted_unique l : StronglySorted lt l -> forall m, StronglySorted lt m -> (forall x, In x l <-> In x m) -> l = m.
Proof.
  induction 1 as [|x l Hl IH Fl]; intros m Hm H.
  - destruct m as [|y m]; [reflexivity|]. exfalso. apply (proj2 (H y)). now left.
  - destruct Hm as [|y m Hm Fm]; [exfalso; apply (proj1 (H x)); now left|].
    rewrite Forall_forall in Fl, Fm. assert (x = y).
    { destruct (proj1 (H x) (or_introl eq_refl)) as [->|I]; [reflexivity|]. destruct (proj2 (H y) (or_introl eq_refl)) as [->|J]; [reflexivity|].
      pose proof (Fm x I). pose proof (Fl y J). lia. }
    subst y. f_equal. apply IH; [exact Hm|]. intros z. split; intros Hz.
    + destruct (proj1 (H z) (or_intror Hz)) as [->|I]; [|exact I]. pose proof (Fl z Hz). lia.
    + destruct (proj2 (H z) (or_intror Hz)) as [->|I]; [|exact I]. pose proof (Fm z Hz). lia.
Qed.
Lemma sorted_seq : forall n k, StronglySorted lt (seq k n).
Proof. induction n as [|n IH]; intros k; cbn [seq]; constructor; [apply IH|]. apply Forall_forall. intros x Hx. apply in_seq in Hx. lia. Qed.
Lemma sorted_filter p l : StronglySorted lt l -> StronglySorted lt (filter p l).
Proof.
  induction 1 as [|x l Hl IH F]; cbn [filter]; [constructor|]. destruct (p x); [|exact IH]. constructor; [exact IH|].
  rewrite Forall_forall in *. intros y Hy. apply filter_In in Hy. now apply F.
Qed.

(** * Frames *)
Section Frame.
Variables (fr : frame Rnum).
Hypothesis Reg : regular fr.
Let n := length (cs_cols (fr_Zt _ fr)).
Let q := cs_rows (fr_Zt _ fr).
Let act := find_active (fr_Lambdat _ fr) (fr_Zt _ fr).
Let rows o := product_rows (fr_Lambdat _ fr) (nth o (cs_cols (fr_Zt _ fr)) []).
Let A o := map (fun i => (i + 1)%nat) (rows o).

Lemma rows_iff o r : In r (rows o) <-> depends (fr_Lambdat _ fr) (fr_Zt _ fr) o r.
Proof.
  unfold rows. rewrite rows_depends. split; [now intros []|]. intros D. split; [|exact D].
  destruct D as (k & _ & S). rewrite (re_Lrows _ Reg). now apply (re_Lambdat _ Reg) in S.
Qed.
Lemma A_iff o r : In (r + 1)%nat (A o) <-> depends (fr_Lambdat _ fr) (fr_Zt _ fr) o r.
Proof.
  unfold A. rewrite in_map_iff, <- rows_iff. split; [|eauto]. intros (i & E & I). now replace r with i by lia.
Qed.
Lemma A_pos o i : In i (A o) -> exists r, i = (r + 1)%nat.
Proof. unfold A. rewrite in_map_iff. intros (r & <- & _). eauto. Qed.
Lemma A_incl j s : incl (A j) (A s) <-> within fr j s.
Proof.
  split.
  - intros H r D. apply A_iff, H, A_iff, D.
  - intros H i Hi. destruct (A_pos j i Hi) as (r & ->). apply A_iff, H, A_iff, Hi.
Qed.
Lemma effect_iff o : has_effect fr o <-> nonempty (rows o) = true.
Proof.
  unfold has_effect. split.
  - intros (r & D). apply rows_iff in D. now destruct (rows o).
  - intros H. destruct (rows o) as [|r l] eqn:E; [discriminate|]. exists r. apply rows_iff. rewrite E. now left.
Qed.

Lemma with_effects_eq l : with_effects fr l -> l = filter (fun o => nonempty (rows o)) (seq 0 n).
Proof.
  intros [S H]. apply sorted_unique; [exact S|apply sorted_filter, sorted_seq|]. intros o. rewrite H, filter_In, in_seq, effect_iff. fold n. intuition lia.
Qed.
Lemma with_effects_ex : exists l, with_effects fr l.
Proof.
  exists (filter (fun o => nonempty (rows o)) (seq 0 n)). split; [apply sorted_filter, sorted_seq|].
  intros o. rewrite filter_In, in_seq, effect_iff. fold n. intuition lia.
Qed.

Context (l : list nat) (Hl : with_effects fr l).
Lemma act_eq : act = map A l.
Proof. unfold act. rewrite find_active_eq, (with_effects_eq l Hl). reflexivity. Qed.
Lemma act_nth o : nth o act [] = match nth_error l o with Some j => A j | None => [] end.
Proof.
  rewrite act_eq. destruct (nth_error l o) as [j|] eqn:E.
  - apply nth_error_nth. now apply map_nth_error.
  - apply nth_overflow. rewrite map_length. now apply nth_error_None.
Qed.
Lemma fits_suits o s : SplitLemmas.fits act (A s) (o + 1) = true <-> forall j, nth_error l o = Some j -> within fr j s.
Proof.
  rewrite fits_incl. replace (o + 1 - 1)%nat with o by lia. rewrite act_nth. destruct (nth_error l o) as [j|].
  - rewrite A_incl. split; [intros H j' E; injection E as <-; exact H|auto].
  - split; [discriminate|]. intros _ i [].
Qed.

Lemma taken_ex : l <> [] -> exists src, forall o, (o < n)%nat -> taken_from fr l o (src o).
Proof.
  intros Hne.
  exists (fun o => match find (fun s => SplitLemmas.fits act (A s) (o + 1)) l with Some s => s | None => 0%nat end).
  intros o _. destruct (find _ l) as [s|] eqn:E.
  - pose proof (find_some _ _ E) as [Is Fs]. cbv beta in Fs. split; [exact Is|]. split; [now apply fits_suits|].
    intros s' Is' Fs'. destruct (Nat.le_gt_cases s s') as [|Hlt]; [assumption|exfalso].
    apply fits_suits in Fs'. destruct Hl as [Srt _]. clear -Srt E Is' Fs' Hlt.
    induction Srt as [|x m Hm IH Fm]; [destruct Is'|]. cbn [find] in E. rewrite Forall_forall in Fm.
    destruct (SplitLemmas.fits act (A x) (o + 1)) eqn:Q.
    + injection E as ->. destruct Is' as [->|I]; [lia|]. pose proof (Fm s' I). lia.
    + destruct Is' as [->|I]; [congruence|]. exact (IH E I).
  - exfalso. assert (N : forall s, In s l -> SplitLemmas.fits act (A s) (o + 1) = false) by (intros s Hs; exact (find_none _ _ E s Hs)).
    destruct (nth_error l o) as [j|] eqn:Ej.
    + pose proof (N j (nth_error_In _ _ Ej)) as F. apply not_true_iff_false in F. apply F, fits_suits. rewrite Ej. intros j' Q. injection Q as <-. now intros r.
    + assert (X : exists s, In s l) by (clear -Hne; destruct l as [|s l']; [congruence|exists s; now left]). destruct X as (s & Is). pose proof (N s Is) as F. apply not_true_iff_false in F. apply F, fits_suits. rewrite Ej. discriminate.
Qed.

Context (src : nat -> nat) (Hsrc : forall o, (o < n)%nat -> taken_from fr l o (src o)).
Context (Hne : l <> []).

Lemma obs_pos : (1 <= n)%nat.
Proof.
  assert (X : exists o, In o l) by (clear -Hne; destruct l as [|o l']; [congruence|exists o; now left]). destruct X as (o & Io).
  destruct (proj1 (proj2 Hl o) Io) as [B _]. fold n in B. lia.
Qed.

Lemma alloc_ok : exists ext, add_obs (unique identical act) act (seq 1 n) = Ok ext.
Proof.
  destruct (add_obs_spec (unique identical act) act (seq 1 n) (seq_NoDup _ _)) as (_ & S2 & _). apply S2.
  intros o Ho. apply in_seq in Ho. destruct (Hsrc (o - 1) ltac:(lia)) as (Is & Su & _). exists (A (src (o - 1)%nat)). split.
  - apply (unique_In identical identical_eq). rewrite act_eq. now apply in_map.
  - apply fits_incl. replace o with (o - 1 + 1)%nat by lia. apply fits_suits. replace (o - 1 + 1 - 1)%nat with (o - 1)%nat by lia. exact Su.
Qed.
Lemma alloc_src ext C os o : add_obs (unique identical act) act (seq 1 n) = Ok ext -> In (C, os) ext -> In o os -> C = A (src (o - 1)%nat).
Proof.
  unfold add_obs. destruct (add_obs_loop _ _ _) as [ext' rem] eqn:E. destruct (Nat.eqb (length rem) 0) eqn:Z; [|discriminate]. intros Q. injection Q as ->.
  intros Hin Ho. pose proof (loop_find act _ _ _ _ (seq_NoDup _ _) E C os o Hin Ho) as F.
  rewrite (find_unique identical identical_eq), act_eq, find_map in F.
  destruct (loop_spec _ _ _ _ _ (seq_NoDup _ _) E) as (_ & Pm & _ & _).
  assert (B : In o (seq 1 n)) by (rewrite <- Pm; apply in_or_app; left; apply in_concat; exists os; split; [now apply (in_map snd) in Hin|exact Ho]).
  apply in_seq in B. destruct (Hsrc (o - 1)%nat ltac:(lia)) as (Is & Su & Le).
  replace (find (fun x => SplitLemmas.fits (map A l) (A x) o) l) with (Some (src (o - 1)%nat)) in F; [cbn in F; congruence|].
  symmetry. rewrite <- act_eq. apply find_least.
  - apply Hl.
  - exact Is.
  - replace o with (o - 1 + 1)%nat at 2 by lia. now apply fits_suits.
  - intros s' Is' Fs'. apply Le; [exact Is'|]. replace o with (o - 1 + 1)%nat in Fs' by lia. exact (proj1 (fits_suits _ _) Fs').
Qed.

(** The factors are those of any frame with the same local terms in which every
    observation has no other random effects than those kept. *)
Lemma split_general fr' : regular fr' -> cs_rows (fr_Zt _ fr') = q -> length (cs_cols (fr_Zt _ fr')) = n ->
  (forall C os, (forall o, In o os -> (1 <= o <= n)%nat /\ C = A (src (o - 1)%nat)) -> local fr' C os = local fr C os) ->
  (forall o r, (o < n)%nat -> depends (fr_Lambdat _ fr') (fr_Zt _ fr') o r -> depends (fr_Lambdat _ fr) (fr_Zt _ fr) (src o) r) ->
  split_as fr fr'.
Proof.
  intros Reg' Hq Hn' Loc Cov. split; [exact Hq|]. pose proof obs_pos as Hn.
  destruct alloc_ok as (ext & E). destruct (add_obs_spec (unique identical act) act (seq 1 n) (seq_NoDup _ _)) as (S1 & _ & _).
  destruct (S1 ext E) as (M & Pm & _).
  assert (Ho : forall C os, In (C, os) ext -> forall o, In o os -> (1 <= o <= n)%nat).
  { intros C os He o Io. assert (In o (seq 1 n)) as X by (rewrite <- Pm; apply in_concat; exists os; split; [now apply (in_map snd) in He|easy]). apply in_seq in X. lia. }
  assert (HC : forall C os, In (C, os) ext -> In C act).
  { intros C os He. apply (unique_In identical identical_eq). rewrite <- M. now apply (in_map fst) in He. }
  exists (map (fun e => local fr (fst e) (snd e)) ext). split; [|split].
  - rewrite (terms_eq fr Reg Hn). fold n q act. now rewrite E.
  - intros d Hd. apply in_map_iff in Hd. destruct Hd as ([C os] & <- & He). cbn [fst snd].
    destruct (active_range fr Reg C (HC C os He)) as (B & D & N).
    split; [|split; [|split; [|split; [|split]]]].
    + apply local_shaped; [exact Reg|]. exact (Ho C os He).
    + reflexivity.
    + cbn [local gd_items]. apply FinFun.Injective_map_NoDup; [intros a b; lia|exact D].
    + cbn [local gd_items]. now destruct C.
    + intros i Hi. cbn [local gd_items] in Hi. apply in_map_iff in Hi. destruct Hi as (c & <- & Hc). apply B in Hc. fold q in Hc. lia.
    + intros m Hm. apply local_Lind; [exact Reg|exact Hm].
  - intros P beta theta u Lu. rewrite (whole_loglik fr' Reg'). rewrite Hn', map_map.
    rewrite <- (lsum_perm _ _ (fun o => contribution fr' P beta theta u (o - 1)) Pm), lsum_concat, lsum_map.
    apply lsum_ext. intros [C os] He. cbn [fst snd].
    destruct (active_range fr Reg C (HC C os He)) as (B & D & N).
    assert (Hs : forall o, In o os -> (1 <= o <= n)%nat /\ C = A (src (o - 1)%nat)) by (intros o Io; split; [exact (Ho C os He o Io)|exact (alloc_src ext C os o E He Io)]).
    rewrite <- (Loc C os Hs). fold q in Lu. rewrite <- Hq in Lu.
    apply (local_loglik fr' Reg'); try assumption.
    + rewrite Hq. exact B.
    + rewrite Hn'. exact (Ho C os He).
    + intros o r Io Dep. destruct (Hs o Io) as [Bo ->]. apply A_iff. apply Cov; [lia|exact Dep].
Qed.

Lemma split_right : (forall o, (o < n)%nat -> within fr o (src o)) -> split_as fr fr.
Proof.
  intros W. apply split_general; try assumption; try reflexivity. intros o r Ho D. exact (W o Ho r D).
Qed.

Lemma dependsb_iff o r : dependsb fr o r = true <-> depends (fr_Lambdat _ fr) (fr_Zt _ fr) o r.
Proof.
  unfold dependsb. rewrite existsb_exists. split.
  - intros ([k x] & I & E). apply existsb_exists in E. destruct E as ([r' y] & J & E). apply Nat.eqb_eq in E. cbn in *. subst r'. exists k. split; [now exists x|now exists y].
  - intros (k & (x & I) & (y & J)). exists (k, x). split; [exact I|]. apply existsb_exists. exists (r, y). split; [exact J|apply Nat.eqb_refl].
Qed.
Lemma keep_col o : (o < n)%nat -> nth o (cs_cols (fr_Zt _ (keep fr src))) [] = filter (fun e => dependsb fr (src o) (fst e)) (nth o (cs_cols (fr_Zt _ fr)) []).
Proof. intros Ho. cbn [keep fr_Zt cs_cols]. now rewrite (nth_map_seq _ n o []) by exact Ho. Qed.
Lemma keep_length : length (cs_cols (fr_Zt _ (keep fr src))) = n.
Proof. cbn [keep fr_Zt cs_cols]. now rewrite map_length, seq_length. Qed.
Lemma keep_stored k o : stored (fr_Zt _ (keep fr src)) k o -> (o < n)%nat /\ stored (fr_Zt _ fr) k o /\ depends (fr_Lambdat _ fr) (fr_Zt _ fr) (src o) k.
Proof.
  intros (x & I). destruct (Nat.lt_ge_cases o n) as [Ho|Ho].
  - rewrite keep_col in I by exact Ho. apply filter_In in I. destruct I as [I D]. split; [exact Ho|]. split; [now exists x|]. now apply dependsb_iff in D.
  - rewrite nth_overflow in I by (rewrite keep_length; exact Ho). destruct I.
Qed.
Lemma keep_regular : regular (keep fr src).
Proof.
  destruct Reg. constructor; rewrite ?keep_length; cbn [keep fr_X fr_numFixed fr_Lambdat fr_Lind fr_response fr_weights cs_rows]; try assumption.
  intros r c S. apply keep_stored in S. destruct S as (_ & S & _). exact (re_Zt r c S).
Qed.
Lemma filter_keep {X} (p : nat -> bool) r (c : list (nat * X)) : p r = true ->
  filter (fun e => Nat.eqb (fst e) r) (filter (fun e => p (fst e)) c) = filter (fun e => Nat.eqb (fst e) r) c.
Proof.
  intros D. induction c as [|[k x] c IH]; [reflexivity|]. cbn [filter fst]. destruct (Nat.eqb_spec k r) as [->|N].
  - rewrite D. cbn [filter fst]. now rewrite Nat.eqb_refl, IH.
  - destruct (p k); [|exact IH]. cbn [filter fst]. destruct (Nat.eqb_spec k r); [contradiction|exact IH].
Qed.
Lemma keep_entry r o : (o < n)%nat -> depends (fr_Lambdat _ fr) (fr_Zt _ fr) (src o) r -> entry (fr_Zt _ (keep fr src)) r o = entry (fr_Zt _ fr) r o.
Proof.
  intros Ho D. unfold entry. apply dependsb_iff in D.
  exact (f_equal (fun c => fold_right Rplus 0 (map snd c)) (eq_trans (f_equal (filter (fun e : nat * R => Nat.eqb (fst e) r)) (keep_col o Ho)) (filter_keep _ r _ D))).
Qed.
Lemma keep_local C os : (forall o, In o os -> (1 <= o <= n)%nat /\ C = A (src (o - 1)%nat)) -> local (keep fr src) C os = local fr C os.
Proof.
  intros H. unfold local. f_equal.
  - apply map_ext_in. intros i Hi. apply map_ext_in. intros o Ho. destruct (H o Ho) as [B E]. rewrite E in Hi.
    destruct (A_pos _ _ Hi) as (r & ->). apply A_iff in Hi. replace (r + 1 - 1)%nat with r by lia. apply keep_entry; [lia|exact Hi].
  - cbn [keep fr_weights]. rewrite keep_length. reflexivity.
Qed.
Lemma split_keep : closed fr -> split_as fr (keep fr src).
Proof.
  intros Cl. apply split_general.
  - exact keep_regular.
  - reflexivity.
  - exact keep_length.
  - exact keep_local.
  - intros o r Ho (k & S & T). apply keep_stored in S. destruct S as (_ & _ & k' & S' & T'). exists k'. split; [exact S'|]. exact (Cl r k k' T T').
Qed.

Lemma nth_sorted o : (forall o', (o' <= o)%nat -> In o' l) -> nth_error l o = Some o.
Proof.
  destruct Hl as [So _]. clear -So. intros H.
  enough (G : forall m k, StronglySorted lt m -> (forall x, In x m -> (k <= x)%nat) -> (forall o', (k <= o' <= k + o)%nat -> In o' m) -> nth_error m o = Some (k + o)%nat).
  { rewrite (G l 0%nat So); [reflexivity|intros; lia|]. intros o' Ho'. apply H. lia. }
  clear. induction o as [|o IH]; intros m k So L H.
  - destruct m as [|x m]; [destruct (H k ltac:(lia))|]. cbn. pose proof (L x (or_introl eq_refl)). inversion So as [|? ? So' F]; subst. rewrite Forall_forall in F.
    destruct (H k ltac:(lia)) as [->|I]; [f_equal; lia|]. pose proof (F k I). lia.
  - destruct m as [|x m]; [destruct (H k ltac:(lia))|]. cbn [nth_error]. pose proof (L x (or_introl eq_refl)). inversion So as [|? ? So' F]; subst. rewrite Forall_forall in F.
    assert (x = k) as -> by (destruct (H k ltac:(lia)) as [->|I]; [reflexivity|pose proof (F k I); lia]).
    rewrite (IH m (S k) So'); [f_equal; lia| |].
    + intros y Hy. pose proof (F y Hy). lia.
    + intros o' Ho'. destruct (H o' ltac:(lia)) as [->|I]; [lia|exact I].
Qed.
Lemma last_within : empty_last fr -> forall o, (o < n)%nat -> within fr o (src o).
Proof.
  intros La o Ho r D. destruct (Hsrc o Ho) as (_ & Su & _). apply (Su o); [|exact D]. apply nth_sorted. intros o' Ho'. apply (proj2 Hl). split; [fold n; lia|].
  destruct (Nat.eq_dec o' o) as [->|N]; [now exists r|]. apply (La o' o); [fold n; lia|now exists r].
Qed.
End Frame.
