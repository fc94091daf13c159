(** Lemmas for C41_vector: frames with random effects times vectors. *)
From Coq Require Import String List Reals Bool Arith ZArith Lia Lra.
From Verif Require Import Model.Base Model.Subexpr Spec.IndexSpec Spec.SubexprSpec Spec.LinearSpec Proofs.FrameMain.
Import ListNotations.
Local Open Scope R_scope.
Notation length := List.length.

Lemma dot_recycled (c : nat -> R) l b s : dot (map (fun ix => snd ix * c (fst ix)) (combine (seq s (length l)) l)) b =
  dot l (map (fun i => c (s + i)%nat * nth i b 0) (seq 0 (length b))).
Proof.
  revert b s. induction l as [|x l IH]; intros b s; [reflexivity|]. destruct b as [|y b]; [reflexivity|].
  cbn [length seq combine map dot fst snd nth]. rewrite IH. rewrite <- (seq_shift (length b) 0), map_map. rewrite Nat.add_0_r.
  f_equal; [ring|]. f_equal. apply map_ext. intros i. cbn [nth]. do 2 f_equal. lia.
Qed.
Lemma dot_scaled l c v : dot (map (fun x => x * c) l) v = c * dot l v.
Proof. revert v. induction l as [|x l IH]; intros [|y v]; cbn [map dot]; try ring. rewrite IH. ring. Qed.
Lemma X_row (X : list (list R)) a k : (0 < length X)%nat -> length a = length X -> (k < length X)%nat ->
  nth k (scale_X X a) [] = map (fun x => x * nth k a 0) (nth k X []).
Proof.
  intros N L K. unfold scale_X. rewrite (nth_combine_seq _ X k [] []) by exact K. cbn [fst snd].
  apply (map_combine_scale (nth k X []) (nth k a 0) 0 (fun j => recycled a (length X) k j)). intros j _. unfold recycled.
  rewrite L, (Nat.mul_comm (length X) j), Nat.mod_add by lia. now rewrite Nat.mod_small.
Qed.
Lemma vector_main f Zt a beta b : matrices f -> mf_Zt f = Some Zt -> length a = rows_of f -> (0 < rows_of f)%nat -> (0 < mf_p f)%nat -> (0 < mf_q f)%nat ->
  length b = mf_q f -> exists g, times_fr f a = Ok g /\ rows_of g = rows_of f /\ forall k, (k < rows_of f)%nat ->
    nth k (lin beta b g) 0 = nth k a 0 * dot (nth k (mf_X f) []) beta +
      dot (nth k Zt []) (by_rows (mf_q f) (fun i => nth ((i + mf_q f * k) mod rows_of f) a 0 * nth i b 0)) /\
    (mf_q f = 1%nat -> nth k (lin beta b g) 0 = nth k a 0 * nth k (lin beta b f) 0).
Proof.
  intros M EZ L N P Q B. destruct M as [MX MZ]. pose proof (conj MX MZ : matrices f) as M. rewrite EZ in MZ. destruct MZ as [LZ FZ].
  assert (RX : recyclable a (length (mf_X f)) (mf_p f) = true).
  { unfold recyclable. apply orb_true_iff. right. apply andb_true_iff. unfold rows_of in *. split; apply Nat.leb_le; nia. }
  assert (RZ : recyclable a (mf_q f) (length Zt) = true).
  { unfold recyclable. apply orb_true_iff. right. apply andb_true_iff. unfold rows_of in *. split; apply Nat.leb_le; nia. }
  destruct (times_fr f a) as [g| | |] eqn:E; try (exfalso; unfold times_fr in E; rewrite RX, EZ, RZ in E; discriminate E).
  exists g. split; [reflexivity|]. pose proof (proj2 (times_shaped f a g M E)) as LR. split; [exact LR|]. intros k K.
  assert (G : nth k (lin beta b g) 0 = nth k a 0 * dot (nth k (mf_X f) []) beta +
      dot (nth k Zt []) (by_rows (mf_q f) (fun i => nth ((i + mf_q f * k) mod rows_of f) a 0 * nth i b 0))).
  { unfold times_fr in E. rewrite RX, EZ, RZ in E. injection E as <-. unfold lin. rewrite nth_map_seq0 by (rewrite LR; exact K). cbn [mf_X mf_Zt].
    rewrite X_row by assumption. rewrite dot_scaled. f_equal. unfold scale_Zt. rewrite (nth_combine_seq _ Zt k [] []) by (rewrite LZ; exact K). cbn [fst snd].
    rewrite (dot_recycled (fun i => recycled a (mf_q f) i k)). unfold by_rows. rewrite B. f_equal. apply map_ext. intros i. unfold recycled. now rewrite L. }
  split; [exact G|]. intros Q1. rewrite G. unfold lin. rewrite nth_map_seq0 by exact K. rewrite EZ. rewrite Q1 in *.
  assert (LK : length (nth k Zt []) = 1%nat) by (rewrite Forall_forall in FZ; apply FZ, nth_In; lia).
  destruct (nth k Zt []) as [|z [|]]; try discriminate LK. destruct b as [|y [|]]; try discriminate B.
  cbn [by_rows seq map dot nth]. rewrite Nat.add_0_l, Nat.mul_1_l, (Nat.mod_small k) by exact K. cbn. ring.
Qed.
