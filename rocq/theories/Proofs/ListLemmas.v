From Coq Require Import List ZArith Bool Lia Arith Permutation.
From Verif Require Import Model.Base.
Import ListNotations.

Lemma upd_length {A} (l : list A) i x : length (upd l i x) = length l.
Proof. revert i; induction l; destruct i; simpl; auto. Qed.

Lemma nth_error_upd_eq {A} (l : list A) i x :
  (i < length l)%nat -> nth_error (upd l i x) i = Some x.
Proof.
  revert i; induction l as [|y l IH]; intros [|i] H; simpl in *; try lia; auto.
  apply IH; lia.
Qed.

Lemma nth_error_upd_neq {A} (l : list A) i j x :
  i <> j -> nth_error (upd l i x) j = nth_error l j.
Proof.
  revert i j; induction l as [|y l IH]; intros [|i] [|j] H; simpl; auto; try lia.
Qed.

Lemma upd_map {A B} (f : A -> B) l i x : map f (upd l i x) = upd (map f l) i (f x).
Proof. revert i; induction l; destruct i; simpl; auto. now rewrite IHl. Qed.

Lemma upd_same {A} (l : list A) i x : nth_error l i = Some x -> upd l i x = l.
Proof.
  revert i; induction l as [|y l IH]; intros [|i] H; simpl in *; try discriminate.
  - now injection H as ->.
  - now rewrite IH.
Qed.

Lemma vec_get_Ok {A} (l : list A) i x : nth_error l i = Some x -> vec_get l i = Ok x.
Proof. unfold vec_get. now intros ->. Qed.
Lemma vec_at_Ok {A} (l : list A) i x : nth_error l i = Some x -> vec_at l i = Ok x.
Proof. unfold vec_at. now intros ->. Qed.

Lemma foldM_app {A St} (f : St -> A -> outcome St) l1 l2 s :
  foldM f (l1 ++ l2) s = bind (foldM f l1 s) (foldM f l2).
Proof.
  revert s; induction l1 as [|x l1 IH]; intros s; simpl; auto.
  destruct (f s x); simpl; auto.
Qed.

Fixpoint sumf {A} (f : A -> nat) (l : list A) : nat :=
  match l with [] => 0 | x :: l' => f x + sumf f l' end.

Lemma sumf_ext {A} (f g : A -> nat) l : (forall x, In x l -> f x = g x) -> sumf f l = sumf g l.
Proof. induction l; simpl; intros H; auto; rewrite H, IHl; auto. Qed.

Lemma sumf_add {A} (f g : A -> nat) l : sumf (fun x => f x + g x) l = sumf f l + sumf g l.
Proof. induction l; simpl; auto. rewrite IHl. lia. Qed.

Lemma sumf_le {A} (f g : A -> nat) l : (forall x, In x l -> f x <= g x) -> sumf f l <= sumf g l.
Proof.
  induction l; simpl; intros H; auto.
  specialize (IHl (fun x h => H x (or_intror h))). specialize (H a (or_introl eq_refl)). lia.
Qed.

Lemma sumf_const {A} c (l : list A) : sumf (fun _ => c) l = c * length l.
Proof. induction l; simpl; auto; lia. Qed.

Lemma sumf_zero {A} (f : A -> nat) l : (forall x, In x l -> f x = 0) -> sumf f l = 0.
Proof. induction l; simpl; intros H; auto. rewrite H, IHl; auto. Qed.

Lemma sumf_le_eq {A} (f g : A -> nat) l :
  (forall x, In x l -> f x <= g x) -> sumf f l = sumf g l -> forall x, In x l -> f x = g x.
Proof.
  induction l as [|a l IH]; simpl; intros Hle Heq x Hx; [tauto|].
  assert (sumf f l <= sumf g l) by (apply sumf_le; auto).
  pose proof (Hle a (or_introl eq_refl)).
  destruct Hx as [<-|Hx]; [lia|]. apply IH; auto. lia.
Qed.

Lemma sumf_indicator (u : nat) l : NoDup l ->
  sumf (fun r => if Nat.eqb r u then 1 else 0) l = if existsb (Nat.eqb u) l then 1 else 0.
Proof.
  induction 1 as [|x l Hni Hnd IH]; simpl; auto.
  rewrite IH, (Nat.eqb_sym x u). destruct (Nat.eqb_spec u x) as [->|]; simpl; auto.
  destruct (existsb (Nat.eqb x) l) eqn:E; auto.
  apply existsb_exists in E. destruct E as (y & Hy & Hxy).
  apply Nat.eqb_eq in Hxy. subst. tauto.
Qed.

Lemma existsb_eqb_In u l : existsb (Nat.eqb u) l = true <-> In u l.
Proof.
  rewrite existsb_exists. split.
  - intros (y & Hy & H). apply Nat.eqb_eq in H. now subst.
  - intros H. exists u. split; auto. apply Nat.eqb_refl.
Qed.

Lemma sumf_filter {A} (p : A -> bool) l : sumf (fun r => if p r then 1 else 0) l = length (filter p l).
Proof. induction l; simpl; auto. destruct (p a); simpl; lia. Qed.

Lemma filter_filter {A} (p q : A -> bool) l :
  filter p (filter q l) = filter (fun x => p x && q x) l.
Proof.
  induction l as [|a l IH]; simpl; auto.
  destruct (q a) eqn:Eq; simpl.
  - rewrite andb_true_r. rewrite IH. destruct (p a); reflexivity.
  - rewrite IH, andb_false_r. reflexivity.
Qed.

Lemma Permutation_NoDup_ext {A} (l1 l2 : list A) :
  NoDup l1 -> NoDup l2 -> (forall x, In x l1 <-> In x l2) -> Permutation l1 l2.
Proof. apply NoDup_Permutation. Qed.

Lemma NoDup_ext_length {A} (l1 l2 : list A) :
  NoDup l1 -> NoDup l2 -> (forall x, In x l1 <-> In x l2) -> length l1 = length l2.
Proof. intros. apply Permutation_length, NoDup_Permutation; auto. Qed.

Lemma nth_error_ext_all {A} (l1 l2 : list A) :
  (forall i, nth_error l1 i = nth_error l2 i) -> l1 = l2.
Proof.
  revert l2. induction l1 as [|x l1 IH]; intros [|y l2] H; auto.
  - specialize (H 0). discriminate.
  - specialize (H 0). discriminate.
  - pose proof (H 0) as H0. injection H0 as ->. f_equal. apply IH. intros i. exact (H (S i)).
Qed.
