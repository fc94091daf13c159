From Coq Require Import List ZArith Bool Lia Arith Permutation.
From Verif Require Import Model.Base Model.Items Model.Mixed Spec.BeliefSpec
  Proofs.ListLemmas Proofs.ItemsLemmas.
Import ListNotations.

Section M.
Variable S : sig.
Notation mixed := (mixed S).

Record mwf (m : mixed) : Prop := {
  mwf_nd : NoDup (m_items m);
  mwf_normal : n_items (m_normal m) = m_items m;
  mwf_rel : m_rel m = map (fun b => findRelativeItems (bscope S b) (m_items m)) (m_beliefs m);
  mwf_inv : length (m_inv m) = length (m_beliefs m);
  mwf_scope : forall b, In b (m_beliefs m) -> incl (bscope S b) (m_items m)
}.

Definition factors (m : mixed) : list (B S * bool) := combine (m_beliefs m) (m_inv m).

(** the value in the order of evaluation *)
Definition acc_step (w : Z -> D S) (acc : D S) (p : B S * bool) : D S :=
  if snd p then dsub S acc (fval S w (fst p)) else dadd S acc (fval S w (fst p)).
Definition ev (m : mixed) (w : Z -> D S) : D S := fold_left (acc_step w) (factors m) (dzero S).

Lemma findSubset_rel (w : Z -> D S) items scope : incl scope items ->
  findSubset (map w items) (findRelativeItems scope items) = Ok (map w scope).
Proof.
  unfold findSubset, findRelativeItems. induction scope as [|i scope IH]; intros H; [reflexivity|].
  simpl. rewrite (vec_get_Ok _ _ (w i)).
  - cbn [bind]. rewrite IH by (intros x Hx; apply H; now right). reflexivity.
  - apply map_nth_error, findRelativeItem_spec, H. now left.
Qed.

Lemma eval_loop_spec (m : mixed) w : forall bs invs k acc,
  length bs = length invs ->
  (forall i b, nth_error bs i = Some b ->
     nth_error (m_rel m) (k + i) = Some (findRelativeItems (bscope S b) (m_items m)) /\
     incl (bscope S b) (m_items m)) ->
  (forall i v, nth_error invs i = Some v -> nth_error (m_inv m) (k + i) = Some v) ->
  eval_loop m (map w (m_items m)) bs k acc = Ok (fold_left (acc_step w) (combine bs invs) acc).
Proof.
  induction bs as [|b bs IH]; intros [|v invs] k acc Hl H1 H2; try discriminate; [reflexivity|].
  cbn [eval_loop]. destruct (H1 0%nat b eq_refl) as [Hr Hi]. rewrite Nat.add_0_r in Hr.
  rewrite (vec_at_Ok _ _ _ Hr). cbn [bind]. rewrite findSubset_rel by auto. cbn [bind].
  pose proof (H2 0%nat v eq_refl) as Hv. rewrite Nat.add_0_r in Hv.
  rewrite (vec_at_Ok _ _ _ Hv). cbn [bind].
  rewrite (IH invs (k + 1)%nat).
  - reflexivity.
  - simpl in Hl. lia.
  - intros i b' Hb'. replace (k + 1 + i)%nat with (k + Datatypes.S i)%nat by lia. now apply H1.
  - intros i v' Hv'. replace (k + 1 + i)%nat with (k + Datatypes.S i)%nat by lia. now apply H2.
Qed.

Lemma evaluate_ev m w : mwf m -> evaluate m (map w (m_items m)) = Ok (ev m w).
Proof.
  intros H. unfold evaluate, ev, factors. apply eval_loop_spec.
  - symmetry. apply H.
  - intros i b Hb. simpl. rewrite (mwf_rel m H).
    split; [apply (map_nth_error (fun b => findRelativeItems (bscope S b) (m_items m))); auto|].
    apply H. now apply nth_error_In in Hb.
  - intros i v Hv. exact Hv.
Qed.

(** well-formedness is preserved *)
Lemma mwf_of_items items : NoDup items -> mwf (mixed_of_items items).
Proof. intros H. split; simpl; auto. intros ? []. Qed.

Lemma mwf_of_belief b : NoDup (bscope S b) -> mwf (mixed_of_belief b).
Proof. intros H. split; simpl; auto. intros ? [<-|[]]. apply incl_refl. Qed.

Lemma mul_items m o : mwf m -> m_items (mixed_mul m o) = m_items m.
Proof. intros H. unfold mixed_mul; simpl. destruct (m_fixed m); apply H. Qed.
Lemma div_items m o : mwf m -> m_items (mixed_div m o) = m_items m.
Proof. intros H. unfold mixed_div; simpl. destruct (m_fixed m); apply H. Qed.

Lemma mwf_mul m o : mwf m -> mwf o -> incl (m_items o) (m_items m) -> mwf (mixed_mul m o).
Proof.
  intros H Ho Hi. split.
  - rewrite mul_items; auto. apply H.
  - unfold mixed_mul; simpl. destruct (m_fixed m); apply H || reflexivity.
  - reflexivity.
  - simpl. rewrite !app_length, (mwf_inv m H), (mwf_inv o Ho). reflexivity.
  - rewrite mul_items by auto. simpl. intros b Hb. apply in_app_or in Hb.
    destruct Hb as [Hb|Hb]; [now apply H|].
    eapply incl_tran; [now apply Ho|auto].
Qed.

Lemma mwf_div m o : mwf m -> mwf o -> incl (m_items o) (m_items m) -> mwf (mixed_div m o).
Proof.
  intros H Ho Hi. split.
  - rewrite div_items; auto. apply H.
  - unfold mixed_div; simpl. destruct (m_fixed m); apply H || reflexivity.
  - reflexivity.
  - simpl. rewrite !app_length, map_length, (mwf_inv m H), (mwf_inv o Ho). reflexivity.
  - rewrite div_items by auto. simpl. intros b Hb. apply in_app_or in Hb.
    destruct Hb as [Hb|Hb]; [now apply H|].
    eapply incl_tran; [now apply Ho|auto].
Qed.

Lemma combine_app {A B'} (l1 l1' : list A) (l2 l2' : list B') : length l1 = length l2 ->
  combine (l1 ++ l1') (l2 ++ l2') = combine l1 l2 ++ combine l1' l2'.
Proof.
  revert l2. induction l1 as [|x l1 IH]; intros [|y l2] H; simpl in *; try discriminate; auto.
  f_equal. apply IH. lia.
Qed.

Lemma factors_mul m o : mwf m -> factors (mixed_mul m o) = factors m ++ factors o.
Proof. intros H. unfold factors; simpl. apply combine_app. symmetry. apply H. Qed.

Definition flip (p : B S * bool) : B S * bool := (fst p, negb (snd p)).

Lemma factors_div m o : mwf m -> factors (mixed_div m o) = factors m ++ map flip (factors o).
Proof.
  intros H. unfold factors; simpl. rewrite combine_app by (symmetry; apply H). f_equal.
  generalize (m_inv o). induction (m_beliefs o) as [|b bs IH]; intros [|v vs]; simpl; auto.
  f_equal. apply IH.
Qed.

(** ** group facts *)
Section G.
Hypothesis L : group_laws S.

Lemma d_zero_l a : dadd S (dzero S) a = a.
Proof. rewrite gl_comm by auto. now apply gl_zero. Qed.

Lemma d_cancel a b c : dadd S a b = dadd S a c -> b = c.
Proof.
  intros H. apply (f_equal (dadd S (dopp S a))) in H.
  rewrite !(gl_assoc S L), !(gl_comm S L (dopp S a)), !(gl_opp S L) in H.
  now rewrite !d_zero_l in H.
Qed.

Lemma d_opp_unique a b : dadd S a b = dzero S -> b = dopp S a.
Proof. intros H. apply (d_cancel a). rewrite H. symmetry. now apply gl_opp. Qed.

Lemma d_opp_opp a : dopp S (dopp S a) = a.
Proof. symmetry. apply d_opp_unique. rewrite gl_comm by auto. now apply gl_opp. Qed.

Lemma d_opp_zero : dopp S (dzero S) = dzero S.
Proof. symmetry. apply d_opp_unique. now apply gl_zero. Qed.

Lemma d_swap4 a b c d : dadd S (dadd S a b) (dadd S c d) = dadd S (dadd S a c) (dadd S b d).
Proof.
  rewrite <- !(gl_assoc S L). f_equal. rewrite !(gl_assoc S L). f_equal. now apply gl_comm.
Qed.

Lemma d_opp_add a b : dopp S (dadd S a b) = dadd S (dopp S a) (dopp S b).
Proof.
  symmetry. apply d_opp_unique. rewrite d_swap4, !(gl_opp S L). now apply gl_zero.
Qed.

Lemma dsumS_app l1 l2 : dsumS S (l1 ++ l2) = dadd S (dsumS S l1) (dsumS S l2).
Proof.
  induction l1 as [|x l1 IH]; simpl; [symmetry; apply d_zero_l|].
  unfold dsumS in *. simpl. rewrite IH. now apply gl_assoc.
Qed.

Lemma dsumS_perm l1 l2 : Permutation l1 l2 -> dsumS S l1 = dsumS S l2.
Proof.
  unfold dsumS. induction 1; simpl; auto; [congruence| |congruence].
  rewrite !(gl_assoc S L). f_equal. now apply gl_comm.
Qed.

Lemma total_app w l1 l2 : total S w (l1 ++ l2) = dadd S (total S w l1) (total S w l2).
Proof. unfold total. now rewrite map_app, dsumS_app. Qed.

Lemma total_flip w l : total S w (map flip l) = dopp S (total S w l).
Proof.
  unfold total. induction l as [|[b v] l IH]; simpl.
  - symmetry. apply d_opp_zero.
  - unfold dsumS in *. simpl. rewrite IH, d_opp_add. f_equal.
    unfold signed; simpl. destruct v; simpl; auto. now rewrite d_opp_opp.
Qed.

Lemma total_perm w l1 l2 : Permutation l1 l2 -> total S w l1 = total S w l2.
Proof. intros H. apply dsumS_perm, Permutation_map, H. Qed.

Lemma fold_acc w l : forall acc, fold_left (acc_step w) l acc = dadd S acc (total S w l).
Proof.
  induction l as [|p l IH]; intros acc; simpl.
  - symmetry. now apply gl_zero.
  - rewrite IH. unfold total, dsumS; simpl. rewrite (gl_assoc S L). f_equal.
    unfold acc_step, signed. destruct (snd p); auto. now apply gl_sub.
Qed.

Lemma ev_total m w : ev m w = total S w (factors m).
Proof. unfold ev. rewrite fold_acc. apply d_zero_l. Qed.

Lemma ev_mul m o w : mwf m -> ev (mixed_mul m o) w = dadd S (ev m w) (ev o w).
Proof. intros H. rewrite !ev_total, factors_mul, total_app; auto. Qed.

Lemma ev_div m o w : mwf m -> ev (mixed_div m o) w = dsub S (ev m w) (ev o w).
Proof. intros H. rewrite !ev_total, factors_div, total_app, total_flip, (gl_sub S L); auto. Qed.

End G.
End M.
Arguments mwf {S}. Arguments factors {S}. Arguments ev {S}. Arguments flip {S}.
