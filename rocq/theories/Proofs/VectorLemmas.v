(** Vectors and matrices as lists. *)
From Coq Require Import List Reals Lia Lra Arith.
From Verif Require Import Model.Base Model.Mixed Model.Vectors Spec.Calculus.
Import ListNotations.
Local Open Scope R_scope.

(** Position in the longer vector of component i of the shorter one. *)
Definition up (o i : nat) : nat := if Nat.ltb i o then i else S i.

Lemma vec_ext (a b : rvec) n : length a = n -> length b = n ->
  (forall i, (i < n)%nat -> nth i a 0 = nth i b 0) -> a = b.
Proof.
  intros La Lb H. apply (nth_ext a b 0 0); [congruence|]. intros i Hi. apply H. lia.
Qed.

Lemma map2_length {A B C} (f : A -> B -> C) a b n : length a = n -> length b = n -> length (map2 f a b) = n.
Proof. intros. unfold map2. rewrite map_length, combine_length. lia. Qed.
Lemma vadd_length a b n : length a = n -> length b = n -> length (vadd a b) = n.
Proof. apply map2_length. Qed.
Lemma vsub_length a b n : length a = n -> length b = n -> length (vsub a b) = n.
Proof. apply map2_length. Qed.
Lemma vscale_length c v : length (vscale c v) = length v.
Proof. apply map_length. Qed.
Lemma vneg_length v : length (vneg v) = length v.
Proof. apply map_length. Qed.

Lemma nth_map2 {A B C} (f : A -> B -> C) i a b da db d : (i < length a)%nat -> (i < length b)%nat ->
  nth i (map2 f a b) d = f (nth i a da) (nth i b db).
Proof.
  unfold map2. revert i b. induction a as [|x a IH]; intros [|i] [|y b] Ha Hb; cbn in *; try lia; auto.
  apply IH; lia.
Qed.
Lemma nth_vadd i a b n : length a = n -> length b = n -> (i < n)%nat ->
  nth i (vadd a b) 0 = nth i a 0 + nth i b 0.
Proof. intros. unfold vadd. apply nth_map2; lia. Qed.
Lemma nth_vsub i a b n : length a = n -> length b = n -> (i < n)%nat ->
  nth i (vsub a b) 0 = nth i a 0 - nth i b 0.
Proof. intros. unfold vsub. apply nth_map2; lia. Qed.
Lemma nth_vscale i c v : nth i (vscale c v) 0 = c * nth i v 0.
Proof.
  unfold vscale. rewrite <- (map_nth (Rmult c) v 0 i). f_equal. ring.
Qed.
Lemma nth_vneg i v : nth i (vneg v) 0 = - nth i v 0.
Proof. unfold vneg. rewrite <- (map_nth Ropp v 0 i). f_equal. ring. Qed.
Lemma nth_zeros i d : nth i (repeat 0 d) 0 = 0.
Proof. apply nth_repeat. Qed.

Lemma erase_length {A} (v : list A) o n : length v = S n -> (o <= n)%nat -> length (erase v o) = n.
Proof.
  revert v n. induction o as [|o IH]; intros [|x v] n L H; cbn in *; try lia.
  destruct n as [|n]; [lia|]. f_equal. apply IH; lia.
Qed.
Lemma nth_erase {A} (v : list A) o i d : nth i (erase v o) d = nth (up o i) v d.
Proof.
  unfold up. revert o i. induction v as [|x v IH]; intros o i.
  - destruct (Nat.ltb i o), i; reflexivity.
  - destruct o as [|o]; [reflexivity|]. destruct i as [|i]; [reflexivity|]. cbn [erase nth]. rewrite IH.
    change (Nat.ltb (S i) (S o)) with (Nat.ltb i o). destruct (Nat.ltb i o); reflexivity.
Qed.
Lemma up_lt o i n : (i < n)%nat -> (o <= n)%nat -> (up o i < S n)%nat.
Proof. intros. unfold up. destruct (Nat.ltb i o); lia. Qed.
Lemma up_ne o i : up o i <> o.
Proof. unfold up. destruct (Nat.ltb_spec i o); lia. Qed.

Lemma insert_length {A} o (v : list A) t : length (insert o v t) = S (length v).
Proof. revert v. induction o as [|o IH]; intros [|x v]; cbn; auto. Qed.
Lemma nth_insert_same {A} o (v : list A) t d : (o <= length v)%nat -> nth o (insert o v t) d = t.
Proof. revert v. induction o as [|o IH]; intros [|x v] H; cbn in *; auto; try lia. apply IH. lia. Qed.
Lemma erase_insert {A} o (v : list A) t : (o <= length v)%nat -> erase (insert o v t) o = v.
Proof. revert v. induction o as [|o IH]; intros [|x v] H; cbn in *; auto; try lia. f_equal. apply IH. lia. Qed.
Lemma nth_insert_up {A} o i (v : list A) t d : (o <= length v)%nat -> nth (up o i) (insert o v t) d = nth i v d.
Proof. intros H. rewrite <- nth_erase, erase_insert; auto. Qed.
Lemma insert_erase {A} o (v : list A) d n : length v = S n -> (o <= n)%nat -> insert o (erase v o) (nth o v d) = v.
Proof.
  revert v n. induction o as [|o IH]; intros [|x v] n L H; cbn in *; try lia; [destruct v; reflexivity|].
  destruct n as [|n]; [lia|]. f_equal. apply (IH _ n); lia.
Qed.

Lemma insert_plus o x h s t n : length x = n -> length h = n ->
  plus_v (insert o x s) (insert o h t) = insert o (plus_v x h) (s + t).
Proof.
  unfold plus_v. revert x h n. induction o as [|o IH]; intros [|a x] [|b h] n Lx Lh; cbn in *; subst; try discriminate; auto.
  f_equal. eapply IH; [reflexivity|]. lia.
Qed.
Lemma norm1_insert o h t : norm1 (insert o h t) = norm1 h + Rabs t.
Proof.
  unfold norm1. revert h. induction o as [|o IH]; intros [|a h]; cbn; try ring. cbn in IH. rewrite IH. ring.
Qed.
Lemma scalar_insert o g h t n : length g = S n -> length h = n -> (o <= n)%nat ->
  scalar g (insert o h t) = scalar (erase g o) h + nth o g 0 * t.
Proof.
  unfold scalar. revert g h n. induction o as [|o IH]; intros [|a g] [|b h] n Lg Lh Ho; cbn in *; subst; try discriminate; try lia; try ring.
  rewrite (IH g h (length h)) by lia. ring.
Qed.

Lemma norm1_pos h : 0 <= norm1 h.
Proof.
  unfold norm1. induction h as [|a h IH]; cbn; [lra|]. pose proof (Rabs_pos a). lra.
Qed.
Lemma scalar_bound g h : Rabs (scalar g h) <= norm1 g * norm1 h.
Proof.
  unfold scalar. revert h. induction g as [|a g IH]; intros h; cbn.
  - rewrite Rabs_R0. pose proof (norm1_pos h). unfold norm1 in *. cbn. lra.
  - destruct h as [|b h]; cbn.
    + rewrite Rabs_R0. pose proof (Rabs_pos a). pose proof (norm1_pos g). unfold norm1 in *. cbn. lra.
    + eapply Rle_trans; [apply Rabs_triang|]. rewrite Rabs_mult. specialize (IH h).
      pose proof (Rabs_pos a). pose proof (norm1_pos g). pose proof (norm1_pos h). pose proof (Rabs_pos b).
      unfold norm1 in *. cbn in *. nra.
Qed.
Lemma scalar_vadd a b h n : length a = n -> length b = n -> scalar (vadd a b) h = scalar a h + scalar b h.
Proof.
  unfold scalar, vadd, map2. revert b h n.
  induction a as [|x a IH]; intros [|y b] h n La Lb; cbn in *; subst; try discriminate; [ring|].
  destruct h as [|z h]; cbn; [ring|]. rewrite (IH b h (length a)) by lia. ring.
Qed.
Lemma scalar_vscale c a h : scalar (vscale c a) h = c * scalar a h.
Proof.
  unfold scalar, vscale. revert h.
  induction a as [|x a IH]; intros h; cbn; [ring|]. destruct h as [|z h]; cbn; [ring|]. rewrite IH. ring.
Qed.
Lemma scalar_zeros d h : scalar (repeat 0 d) h = 0.
Proof.
  unfold scalar. revert h. induction d as [|d IH]; intros [|z h]; cbn; auto. rewrite IH. ring.
Qed.
Lemma scalar_plus g x h n : length x = n -> length h = n -> scalar g (plus_v x h) = scalar g x + scalar g h.
Proof.
  unfold scalar, plus_v. revert x h n.
  induction g as [|a g IH]; intros [|x xs] [|h hs] n Lx Lh; cbn in *; subst; try discriminate; try ring.
  rewrite (IH xs hs (length xs)) by lia. ring.
Qed.
Lemma plus_v_length x h n : length x = n -> length h = n -> length (plus_v x h) = n.
Proof. intros. unfold plus_v. rewrite map_length, combine_length. lia. Qed.
Lemma vdot_scalar a b : vdot a b = scalar a b.
Proof. reflexivity. Qed.
Lemma scalar_vsub a b h n : length a = n -> length b = n -> scalar h (vsub a b) = scalar h a - scalar h b.
Proof.
  unfold scalar, vsub, map2. revert a b n.
  induction h as [|z h IH]; intros [|x a] [|y b] n La Lb; cbn in *; subst; try discriminate; try ring.
  rewrite (IH a b (length a)) by lia. ring.
Qed.
Lemma scalar_vneg a h : scalar (vneg a) h = - scalar a h.
Proof.
  unfold scalar, vneg. revert h.
  induction a as [|x a IH]; intros h; cbn; [ring|]. destruct h as [|z h]; cbn; [ring|]. rewrite IH. ring.
Qed.
Lemma scalar_nil_r g : scalar g [] = 0.
Proof. unfold scalar. destruct g; reflexivity. Qed.
Lemma scalar_comm a b : scalar a b = scalar b a.
Proof.
  unfold scalar. revert b. induction a as [|x a IH]; intros [|y b]; cbn; auto. rewrite IH. ring.
Qed.

(** Matrices. *)
Lemma nth_map_lt {A B} (f : A -> B) l i d d' : (i < length l)%nat -> nth i (map f l) d = f (nth i l d').
Proof. revert i. induction l as [|x l IH]; intros [|i] H; cbn in *; auto; try lia. apply IH. lia. Qed.
Lemma nth_mscale i c m : nth i (mscale c m) [] = vscale c (nth i m []).
Proof. unfold mscale. change (@nil R) with (vscale c []) at 1. apply map_nth. Qed.
Lemma mscale_length c m : length (mscale c m) = length m.
Proof. apply map_length. Qed.
Lemma nth_madd i a b n : length a = n -> length b = n -> (i < n)%nat ->
  nth i (madd a b) [] = vadd (nth i a []) (nth i b []).
Proof. intros. unfold madd. apply (@nth_map2 (list R) (list R) (list R)); lia. Qed.
Lemma nth_msub i a b n : length a = n -> length b = n -> (i < n)%nat ->
  nth i (msub a b) [] = vsub (nth i a []) (nth i b []).
Proof. intros. unfold msub. apply (@nth_map2 (list R) (list R) (list R)); lia. Qed.
Lemma nth_outer i a b : (i < length a)%nat -> nth i (outer a b) [] = vscale (nth i a 0) b.
Proof. intros. unfold outer. rewrite (nth_map_lt (fun x => vscale x b) a i [] 0) by assumption. reflexivity. Qed.
Lemma nth_mwithout o i m n : length m = S n -> (o <= n)%nat -> (i < n)%nat ->
  nth i (getMatrixWithout o m) [] = erase (nth (up o i) m []) o.
Proof.
  intros L Ho Hi. unfold getMatrixWithout.
  rewrite (nth_map_lt _ _ _ _ []) by (rewrite (erase_length m o n); lia).
  rewrite nth_erase. reflexivity.
Qed.
