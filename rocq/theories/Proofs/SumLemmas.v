(** Sums, and quadratic forms as double sums. *)
From Coq Require Import List Reals Lia Lra Arith.
From Verif Require Import Model.Base Model.Mixed Model.Vectors Spec.GLMMSpec Spec.MatrixSpec Spec.Calculus
  Proofs.GLMMLemmas Proofs.VectorLemmas.
Import ListNotations.
Local Open Scope R_scope.

Lemma sumR_0 f : sumR 0 f = 0. Proof. reflexivity. Qed.
Lemma sumR_zero n : sumR n (fun _ => 0) = 0.
Proof. induction n as [|n IH]; [reflexivity|]. rewrite sumR_S, IH. ring. Qed.
Lemma sumR_scal_r n c f : sumR n (fun i => f i * c) = sumR n f * c.
Proof. rewrite (sumR_ext n _ (fun i => c * f i)) by (intros; ring). rewrite sumR_scal. ring. Qed.
Lemma sumR_opp n f : sumR n (fun i => - f i) = - sumR n f.
Proof. rewrite (sumR_ext n _ (fun i => (-1) * f i)) by (intros; ring). rewrite sumR_scal. ring. Qed.
Lemma sumR_minus n f g : sumR n (fun i => f i - g i) = sumR n f - sumR n g.
Proof. unfold Rminus. rewrite sumR_plus, sumR_opp. reflexivity. Qed.
Lemma sumR_last n f : sumR (S n) f = sumR n f + f n.
Proof.
  revert f. induction n as [|n IH]; intros f; rewrite sumR_S; [rewrite !sumR_0; ring|].
  rewrite (IH (fun i => f (S i))), sumR_S. ring.
Qed.
Lemma sumR_swap n m (f : nat -> nat -> R) :
  sumR n (fun i => sumR m (fun j => f i j)) = sumR m (fun j => sumR n (fun i => f i j)).
Proof.
  induction n as [|n IH].
  - rewrite sumR_0. rewrite (sumR_ext m _ (fun _ => 0)) by (intros; apply sumR_0). rewrite sumR_zero. reflexivity.
  - rewrite sumR_last, IH.
    rewrite (sumR_ext m (fun j => sumR (S n) (fun i => f i j)) (fun j => sumR n (fun i => f i j) + f n j))
      by (intros j _; exact (sumR_last n (fun i => f i j))).
    rewrite sumR_plus. reflexivity.
Qed.
Lemma sumR_up n o f : (o <= n)%nat -> sumR (S n) f = f o + sumR n (fun i => f (up o i)).
Proof.
  revert o f. induction n as [|n IH]; intros o f H.
  - assert (o = 0)%nat by lia. subst. rewrite sumR_S, !sumR_0. reflexivity.
  - rewrite sumR_S. destruct o as [|o].
    + f_equal.
    + rewrite (IH o (fun i => f (S i))) by lia.
      rewrite (sumR_S n (fun i => f (up (S o) i))). unfold up at 2.
      destruct (Nat.ltb_spec 0 (S o)); [|lia].
      replace (sumR n (fun i => f (up (S o) (S i)))) with (sumR n (fun i => f (S (up o i)))); [ring|].
      apply sumR_ext. intros i _. f_equal. unfold up.
      change (Nat.ltb (S i) (S o)) with (Nat.ltb i o). destruct (Nat.ltb i o); reflexivity.
Qed.
Lemma sumR_abs n f : Rabs (sumR n f) <= sumR n (fun i => Rabs (f i)).
Proof.
  induction n as [|n IH]; [rewrite !sumR_0, Rabs_R0; lra|]. rewrite !sumR_last.
  eapply Rle_trans; [apply Rabs_triang|]. lra.
Qed.
Lemma sumR_le n f g : (forall i, (i < n)%nat -> f i <= g i) -> sumR n f <= sumR n g.
Proof.
  induction n as [|n IH]; intros H; [rewrite !sumR_0; lra|]. rewrite !sumR_last.
  pose proof (H n ltac:(lia)). assert (sumR n f <= sumR n g) by (apply IH; intros; apply H; lia). lra.
Qed.
Lemma sumR_delta n i f : (i < n)%nat -> sumR n (fun j => unit_entry i j * f j) = f i.
Proof.
  intros H. rewrite (sumR_single n i); [unfold unit_entry; rewrite Nat.eqb_refl; ring|exact H|].
  intros j Hj Hne; unfold unit_entry; destruct (Nat.eqb_spec i j); [lia|ring].
Qed.
Lemma sumR_delta_r n i f : (i < n)%nat -> sumR n (fun j => f j * unit_entry j i) = f i.
Proof.
  intros H. rewrite (sumR_single n i); [unfold unit_entry; rewrite Nat.eqb_refl; ring|exact H|].
  intros j Hj Hne; unfold unit_entry; destruct (Nat.eqb_spec j i); [lia|ring].
Qed.

Lemma scalar_sum a b n : length a = n -> length b = n -> scalar a b = sumR n (fun i => nth i a 0 * nth i b 0).
Proof.
  unfold scalar. revert b n. induction a as [|x a IH]; intros [|y b] n La Lb; cbn in *; subst; try discriminate; [reflexivity|].
  rewrite sumR_S. cbn. rewrite (IH b (length a)) by lia. reflexivity.
Qed.
Lemma vdot_sum a b n : length a = n -> length b = n -> vdot a b = sumR n (fun i => nth i a 0 * nth i b 0).
Proof. apply scalar_sum. Qed.

Lemma mvmul_length m v : length (mvmul m v) = length m.
Proof. apply map_length. Qed.
Lemma nth_mvmul d m v i : square d m -> length v = d -> (i < d)%nat ->
  nth i (mvmul m v) 0 = sumR d (fun j => entry m i j * nth j v 0).
Proof.
  intros [Lm Lr] Lv Hi. unfold mvmul. rewrite (nth_map_lt _ _ _ _ []) by lia.
  rewrite (vdot_sum _ _ d) by auto. reflexivity.
Qed.
(** v^T m for a matrix of n rows and d columns. *)
Lemma vmmul_spec n d m v : length m = n -> length v = n -> (0 < n)%nat ->
  (forall i, (i < n)%nat -> length (nth i m []) = d) ->
  length (vmmul v m) = d /\
  forall j, (j < d)%nat -> nth j (vmmul v m) 0 = sumR n (fun i => nth i v 0 * entry m i j).
Proof.
  intros Lm Lv Hn Hr. unfold vmmul.
  assert (E : length (hd [] m) = d) by (destruct m; [cbn in Lm; lia|apply (Hr 0%nat); lia]).
  rewrite E. clear Hn E.
  revert v n Lm Lv Hr. induction m as [|row m IH]; intros v n Lm Lv Hr.
  - cbn in Lm. subst n. destruct v; [|discriminate]. cbn. split; [apply repeat_length|].
    intros j Hj. apply nth_zeros.
  - destruct n as [|n]; [discriminate|]. destruct v as [|x v]; [discriminate|].
    injection Lm as Lm. injection Lv as Lv.
    destruct (IH v n Lm Lv) as [A B]; [intros i Hi; apply (Hr (S i)); lia|].
    assert (Lrow : length row = d) by (apply (Hr 0%nat); lia).
    cbn [combine fold_right]. cbn [fst snd]. split.
    + apply vadd_length; [rewrite vscale_length; exact Lrow|exact A].
    + intros j Hj. rewrite (nth_vadd j _ _ d); auto; [|rewrite vscale_length; auto].
      rewrite nth_vscale, B by auto. rewrite sumR_S. reflexivity.
Qed.

(** Subsets. *)
Lemma upd_length {A} (l : list A) k v : length (upd l k v) = length l.
Proof. revert k. induction l as [|x l IH]; intros [|k]; cbn; auto. Qed.
Lemma nth_upd_eq {A} (l : list A) k v d : (k < length l)%nat -> nth k (upd l k v) d = v.
Proof. revert k. induction l as [|x l IH]; intros [|k] H; cbn in *; auto; try lia. apply IH. lia. Qed.
Lemma nth_upd_ne {A} (l : list A) k i v d : i <> k -> nth i (upd l k v) d = nth i l d.
Proof. revert k i. induction l as [|x l IH]; intros [|k] [|i] H; cbn in *; auto; try lia; apply IH; lia. Qed.

Lemma setVectorSubset_length t s S : length (setVectorSubset t s S) = length t.
Proof. revert t s. induction S as [|k S IH]; intros t [|x s]; cbn; auto. rewrite IH. apply upd_length. Qed.
Lemma setVectorSubset_out t s S i : ~ In i S -> nth i (setVectorSubset t s S) 0 = nth i t 0.
Proof.
  revert t s. induction S as [|k S IH]; intros t [|x s] H; cbn in *; auto.
  rewrite IH by tauto. apply nth_upd_ne. intros ->. tauto.
Qed.
Lemma setVectorSubset_in t s S a : NoDup S -> (forall i, In i S -> (i < length t)%nat) -> length s = length S ->
  (a < length S)%nat -> nth (nth a S 0%nat) (setVectorSubset t s S) 0 = nth a s 0.
Proof.
  revert t s a. induction S as [|k S IH]; intros t [|x s] a ND HS L Ha; cbn in *; try lia.
  inversion ND; subst. destruct a as [|a]; cbn.
  - rewrite setVectorSubset_out by auto. apply nth_upd_eq. apply HS. auto.
  - apply IH; auto; try lia. intros i Hi. rewrite upd_length. apply HS. auto.
Qed.
Lemma setMatrixRows_length t s rows cols : length (setMatrixRows t s rows cols) = length t.
Proof. revert t s. induction rows as [|k S IH]; intros t [|x s]; cbn; auto. rewrite IH. apply upd_length. Qed.
Lemma setMatrixRows_out t s rows cols i : ~ In i rows -> nth i (setMatrixRows t s rows cols) [] = nth i t [].
Proof.
  revert t s. induction rows as [|k S IH]; intros t [|x s] H; cbn in *; auto.
  rewrite IH by tauto. apply nth_upd_ne. intros ->. tauto.
Qed.
Lemma setMatrixRows_in t s rows cols a : NoDup rows -> (forall i, In i rows -> (i < length t)%nat) ->
  length s = length rows -> (a < length rows)%nat ->
  nth (nth a rows 0%nat) (setMatrixRows t s rows cols) []
  = setVectorSubset (nth (nth a rows 0%nat) t []) (nth a s []) cols.
Proof.
  revert t s a. induction rows as [|k S IH]; intros t [|x s] a ND HS L Ha; cbn in *; try lia.
  inversion ND; subst. destruct a as [|a]; cbn.
  - rewrite setMatrixRows_out by auto. apply nth_upd_eq. apply HS. auto.
  - rewrite IH; auto; try lia.
    + f_equal. apply nth_upd_ne. intros E. apply H1. rewrite <- E. apply nth_In. lia.
    + intros i Hi. rewrite upd_length. apply HS. auto.
Qed.
Lemma vsubset_length v S : length (vsubset v S) = length S.
Proof. apply map_length. Qed.
Lemma nth_vsubset v S a : (a < length S)%nat -> nth a (vsubset v S) 0 = nth (nth a S 0%nat) v 0.
Proof. intros H. unfold vsubset. rewrite (nth_map_lt _ _ _ _ 0%nat) by auto. reflexivity. Qed.
Lemma msubset_square m S : square (length S) (msubset m S).
Proof.
  split; [apply map_length|]. intros i Hi. unfold msubset. rewrite (nth_map_lt _ _ _ _ 0%nat) by auto. apply map_length.
Qed.
Lemma entry_msubset m S a b : (a < length S)%nat -> (b < length S)%nat ->
  entry (msubset m S) a b = entry m (nth a S 0%nat) (nth b S 0%nat).
Proof.
  intros Ha Hb. unfold entry, msubset. rewrite (nth_map_lt _ _ _ _ 0%nat) by auto.
  rewrite (nth_map_lt _ _ _ _ 0%nat) by auto. reflexivity.
Qed.
Lemma madd_square d A B : square d A -> square d B -> square d (madd A B).
Proof.
  intros [LA RA] [LB RB]. split; [apply map2_length; auto|]. intros i Hi.
  rewrite (nth_madd i _ _ d) by auto. apply vadd_length; auto.
Qed.
Lemma entry_madd d A B i j : square d A -> square d B -> (i < d)%nat -> (j < d)%nat ->
  entry (madd A B) i j = entry A i j + entry B i j.
Proof.
  intros [LA RA] [LB RB] Hi Hj. unfold entry. rewrite (nth_madd i _ _ d) by auto.
  rewrite (nth_vadd j _ _ d) by auto. reflexivity.
Qed.
Lemma mscale_square d c A : square d A -> square d (mscale c A).
Proof.
  intros [LA RA]. split; [rewrite mscale_length; auto|]. intros i Hi. rewrite nth_mscale, vscale_length. auto.
Qed.
Lemma entry_mscale c A i j : entry (mscale c A) i j = c * entry A i j.
Proof. unfold entry. rewrite nth_mscale, nth_vscale. reflexivity. Qed.

(** A list of distinct indices: sums over it. *)
Lemma In_position S (i : nat) : In i S -> exists a, (a < length S)%nat /\ nth a S 0%nat = i.
Proof. intros H. destruct (In_nth S i 0%nat H) as [a [Ha E]]. eauto. Qed.
Lemma NoDup_nth_inj S a b : NoDup S -> (a < length S)%nat -> (b < length S)%nat ->
  nth a S 0%nat = nth b S 0%nat -> a = b.
Proof. intros ND Ha Hb E. exact (proj1 (NoDup_nth S 0%nat) ND a b Ha Hb E). Qed.
