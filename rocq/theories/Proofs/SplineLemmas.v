(** Assigned matrices, the equations of a cubic spline and their solution. *)
From Coq Require Import List Reals Lra Lia Arith.
From Verif Require Import Model.Base Model.Vectors Model.BasisLevel Spec.GLMMSpec Spec.MatrixSpec Spec.SplineSpec
  Proofs.ListLemmas Proofs.SumLemmas Proofs.GLMMLemmas Proofs.VectorLemmas.
Import ListNotations.
Local Open Scope R_scope.

(** * Sequences of assignments *)
Lemma nth_repeat_lt {A} (a d : A) r i : (i < r)%nat -> nth i (repeat a r) d = a.
Proof. revert i. induction r; intros [|i] H; simpl; auto; try lia. apply IHr. lia. Qed.
Definition shape (r c : nat) (m : rmat) : Prop := length m = r /\ forall i, (i < r)%nat -> length (nth i m []) = c.
Lemma zeros_shape r c : shape r c (zeros r c).
Proof. unfold zeros. split; [apply repeat_length|]. intros i Hi. rewrite nth_repeat_lt by auto. apply repeat_length. Qed.
Lemma entry_zeros r c i j : entry (zeros r c) i j = 0.
Proof.
  unfold entry, zeros. destruct (lt_dec i r).
  - rewrite nth_repeat_lt by auto. apply nth_repeat.
  - rewrite nth_overflow with (l := repeat _ _) by (rewrite repeat_length; lia). now destruct j.
Qed.
Definition here (r c : nat) (a : assignment) : bool := (Nat.eqb (fst (fst a)) r && Nat.eqb (snd (fst a)) c)%bool.
Fixpoint last_val (l : list assignment) (r c : nat) (d : R) : R :=
  match l with [] => d | a :: l' => last_val l' r c (if here r c a then snd a else d) end.

Lemma mat_set_ok R C m r c v : shape R C m -> (r < R)%nat -> (c < C)%nat ->
  exists m', mat_set m r c v = Ok m' /\ shape R C m' /\
  forall i j, entry m' i j = if (Nat.eqb r i && Nat.eqb c j)%bool then v else entry m i j.
Proof.
  intros [S1 S2] Hr Hc. unfold mat_set, vec_get.
  rewrite (nth_error_nth' m []) by lia. cbn [bind].
  rewrite (nth_error_nth' (nth r m []) 0) by (rewrite S2; auto). cbn [bind].
  eexists. split; [reflexivity|]. split.
  - split; [now rewrite upd_length|]. intros i Hi. destruct (Nat.eq_dec i r) as [->|N].
    + rewrite nth_upd_eq by lia. rewrite upd_length. auto.
    + rewrite nth_upd_ne by auto. auto.
  - intros i j. unfold entry. destruct (Nat.eqb_spec r i) as [<-|N]; cbn [andb].
    + rewrite nth_upd_eq by lia. destruct (Nat.eqb_spec c j) as [<-|N].
      * rewrite nth_upd_eq; auto. now rewrite S2.
      * rewrite nth_upd_ne; auto.
    + rewrite nth_upd_ne; auto.
Qed.
Lemma assign_ok R C l : forall m, shape R C m -> (forall r c v, In ((r, c), v) l -> (r < R)%nat /\ (c < C)%nat) ->
  exists m', assign m l = Ok m' /\ shape R C m' /\ forall i j, entry m' i j = last_val l i j (entry m i j).
Proof.
  induction l as [|((r, c), v) l IH]; intros m Hm Hl; unfold assign; cbn [foldM].
  - exists m. auto.
  - destruct (Hl r c v (or_introl eq_refl)) as [Hr Hc].
    destruct (mat_set_ok R C m r c v Hm Hr Hc) as (m1 & E1 & S1 & V1). cbn [fst snd]. rewrite E1. cbn [bind].
    destruct (IH m1 S1) as (m2 & E2 & S2 & V2). { intros. eapply Hl. right. eauto. }
    exists m2. split; [exact E2|]. split; auto. intros i j. rewrite V2, V1. reflexivity.
Qed.
Lemma last_val_const l r c v : (forall v', In ((r, c), v') l -> v' = v) -> last_val l r c v = v.
Proof.
  induction l as [|((a, b), w) l IH]; intros H; [reflexivity|]. cbn [last_val]. unfold here. cbn [fst snd].
  destruct (Nat.eqb_spec a r) as [->|]; cbn [andb]; [destruct (Nat.eqb_spec b c) as [->|]|].
  - rewrite (H w) by now left. apply IH. intros. apply H. now right.
  - apply IH. intros. apply H. now right.
  - apply IH. intros. apply H. now right.
Qed.
Lemma last_val_in l r c v d : In ((r, c), v) l -> (forall v', In ((r, c), v') l -> v' = v) -> last_val l r c d = v.
Proof.
  revert d. induction l as [|((a, b), w) l IH]; intros d Hin H; [contradiction|]. cbn [last_val].
  destruct Hin as [E|Hin].
  - inversion E. subst. unfold here. cbn [fst snd]. rewrite !Nat.eqb_refl. cbn [andb].
    apply last_val_const. intros. apply H. now right.
  - apply IH; auto. intros. apply H. now right.
Qed.
Lemma last_val_out l r c d : (forall v, ~ In ((r, c), v) l) -> last_val l r c d = d.
Proof.
  induction l as [|((a, b), w) l IH]; intros H; [reflexivity|]. cbn [last_val]. unfold here. cbn [fst snd].
  destruct (Nat.eqb_spec a r) as [->|]; cbn [andb]; [destruct (Nat.eqb_spec b c) as [->|]|].
  - exfalso. apply (H w). now left.
  - apply IH. intros v Hv. apply (H v). now right.
  - apply IH. intros v Hv. apply (H v). now right.
Qed.

(** * Sums over blocks *)
Lemma sumR_blocks m f : sumR (4 * m) f = sumR m (fun b => f (4 * b)%nat + f (4 * b + 1)%nat + f (4 * b + 2)%nat + f (4 * b + 3)%nat).
Proof.
  induction m as [|m IH]; [reflexivity|]. replace (4 * S m)%nat with (S (S (S (S (4 * m))))) by lia.
  rewrite !sumR_last, IH. replace (S (S (S (4 * m)))) with (4 * m + 3)%nat by lia.
  replace (S (S (4 * m))) with (4 * m + 2)%nat by lia. replace (S (4 * m)) with (4 * m + 1)%nat by lia. ring.
Qed.
Lemma sumR_null m f : (forall b, (b < m)%nat -> f b = 0) -> sumR m f = 0.
Proof. intros H. transitivity (sumR m (fun _ => 0)); [apply sumR_ext; auto|apply sumR_zero]. Qed.
Lemma sumR_one m i f : (i < m)%nat -> (forall b, (b < m)%nat -> b <> i -> f b = 0) -> sumR m f = f i.
Proof.
  intros Hi H. rewrite <- (sumR_delta m i f Hi). apply sumR_ext. intros b Hb. unfold unit_entry.
  destruct (Nat.eqb_spec i b) as [<-|]; [ring|]. rewrite (H b) by auto. ring.
Qed.
Lemma sumR_two m i j f : (i < m)%nat -> (j < m)%nat -> i <> j -> (forall b, (b < m)%nat -> b <> i -> b <> j -> f b = 0) ->
  sumR m f = f i + f j.
Proof.
  intros Hi Hj N H. transitivity (sumR m (fun b => unit_entry i b * f b + unit_entry j b * f b)).
  - apply sumR_ext. intros b Hb. unfold unit_entry. destruct (Nat.eqb_spec i b) as [E1|]; destruct (Nat.eqb_spec j b) as [E2|]; try congruence; try ring.
    rewrite (H b) by auto. ring.
  - rewrite sumR_plus. now rewrite !sumR_delta.
Qed.

(** * The system *)
Section System.
Variables (n : nat) (k : nat -> R).
Hypothesis Hn : (4 <= n)%nat.
Notation m := (n - 1)%nat.

Ltac in_flat := repeat match goal with
  | H : In _ (flat_map _ _) |- _ => apply in_flat_map in H; destruct H as (? & ? & H)
  | H : In _ (seq _ _) |- _ => apply in_seq in H
  | H : In _ (_ ++ _) |- _ => apply in_app_or in H; destruct H as [H|H]
  end.

Inductive inA : nat -> nat -> R -> Prop :=
| A_left i j : (i < m)%nat -> (j < 4)%nat -> inA (2 * i) (4 * i + j) (k i ^ j)
| A_right i j : (i < m)%nat -> (j < 4)%nat -> inA (2 * i + 1) (4 * i + j) (k (i + 1)%nat ^ j)
| A_first_a i j : (1 <= i < m)%nat -> (1 <= j < 4)%nat -> inA (2 * m + i - 1) (4 * (i - 1) + j) (INR j * k i ^ (j - 1))
| A_first_b i j : (1 <= i < m)%nat -> (1 <= j < 4)%nat -> inA (2 * m + i - 1) (4 * i + j) (- (INR j * k i ^ (j - 1)))
| A_second_a i j : (1 <= i < m)%nat -> (2 <= j < 4)%nat ->
    inA (2 * m + i - 1 + n - 2) (4 * (i - 1) + j) (INR j * INR (j - 1) * k i ^ (j - 2))
| A_second_b i j : (1 <= i < m)%nat -> (2 <= j < 4)%nat ->
    inA (2 * m + i - 1 + n - 2) (4 * i + j) (- (INR j * INR (j - 1) * k i ^ (j - 2)))
| A_end_a : inA (4 * n - 6) 3 6
| A_end_b : inA (4 * n - 5) (4 * (n - 2) + 3) 6.

Lemma inA_iff r c v : In ((r, c), v) (system_A n k) <-> inA r c v.
Proof.
  unfold system_A. split.
  - intros H. in_flat.
    + unfold interpolation_A in H. in_flat. destruct H as [H|[H|[]]]; inversion H; subst; constructor; lia.
    + unfold smoothness_A in H. in_flat.
      * destruct H as [H|[H|[]]]; inversion H; subst; constructor; lia.
      * destruct (Nat.ltb_spec 1 x0); [|destruct H]. destruct H as [H|[H|[]]]; inversion H; subst; constructor; lia.
    + destruct H as [H|[H|[]]]; inversion H; subst; constructor.
  - intros H. destruct H as [i j Hi Hj|i j Hi Hj|i j Hi Hj|i j Hi Hj|i j Hi Hj|i j Hi Hj| |].
    + apply in_or_app. left. apply in_flat_map. exists i. split; [apply in_seq; lia|].
      apply in_flat_map. exists j. split; [apply in_seq; lia|]. now left.
    + apply in_or_app. left. apply in_flat_map. exists i. split; [apply in_seq; lia|].
      apply in_flat_map. exists j. split; [apply in_seq; lia|]. right. now left.
    + apply in_or_app. right. apply in_or_app. left. apply in_flat_map. exists i. split; [apply in_seq; lia|].
      apply in_flat_map. exists j. split; [apply in_seq; lia|]. apply in_or_app. left. now left.
    + apply in_or_app. right. apply in_or_app. left. apply in_flat_map. exists i. split; [apply in_seq; lia|].
      apply in_flat_map. exists j. split; [apply in_seq; lia|]. apply in_or_app. left. right. now left.
    + apply in_or_app. right. apply in_or_app. left. apply in_flat_map. exists i. split; [apply in_seq; lia|].
      apply in_flat_map. exists j. split; [apply in_seq; lia|]. apply in_or_app. right.
      destruct (Nat.ltb_spec 1 j); [|lia]. now left.
    + apply in_or_app. right. apply in_or_app. left. apply in_flat_map. exists i. split; [apply in_seq; lia|].
      apply in_flat_map. exists j. split; [apply in_seq; lia|]. apply in_or_app. right.
      destruct (Nat.ltb_spec 1 j); [|lia]. right. now left.
    + apply in_or_app. right. apply in_or_app. right. now left.
    + apply in_or_app. right. apply in_or_app. right. right. now left.
Qed.
Lemma inA_fun r c v v' : inA r c v -> inA r c v' -> v = v'.
Proof.
  intros H H'. inversion H as [i j|i j|i j|i j|i j|i j| |]; inversion H' as [i' j'|i' j'|i' j'|i' j'|i' j'|i' j'| |]; subst; try lia; try reflexivity;
    try (exfalso; lia); assert (i' = i) by lia; subst i'; assert (j' = j) by lia; subst j'; reflexivity.
Qed.
Lemma inA_range r c v : inA r c v -> (r < 4 * m)%nat /\ (c < 4 * m)%nat.
Proof. intros H; inversion H; lia. Qed.

Lemma A_ok : exists A, assign (zeros (4 * m) (4 * m)) (system_A n k) = Ok A /\ shape (4 * m) (4 * m) A /\
  (forall r c v, inA r c v -> entry A r c = v) /\ (forall r c, (forall v, ~ inA r c v) -> entry A r c = 0).
Proof.
  destruct (assign_ok (4 * m) (4 * m) (system_A n k) (zeros (4 * m) (4 * m))) as (A & E & S & V).
  - apply zeros_shape.
  - intros r c v H. apply inA_iff in H. eapply inA_range; eauto.
  - exists A. split; auto. split; auto. split.
    + intros r c v H. rewrite V. apply last_val_in; [now apply inA_iff|].
      intros v' H'. apply inA_iff in H'. symmetry. eapply inA_fun; eauto.
    + intros r c H. rewrite V, last_val_out; [apply entry_zeros|]. intros v Hv. apply inA_iff in Hv. eapply H; eauto.
Qed.

(** The pieces and their derivatives. *)
Definition piece (X : nat -> R) (i : nat) (x : R) : R :=
  X (4 * i)%nat + X (4 * i + 1)%nat * x + X (4 * i + 2)%nat * x ^ 2 + X (4 * i + 3)%nat * x ^ 3.
Definition piece1 (X : nat -> R) (i : nat) (x : R) : R :=
  X (4 * i + 1)%nat + 2 * X (4 * i + 2)%nat * x + 3 * X (4 * i + 3)%nat * x ^ 2.
Definition piece2 (X : nat -> R) (i : nat) (x : R) : R :=
  2 * X (4 * i + 2)%nat + 6 * X (4 * i + 3)%nat * x.

Section Rows.
Variable A : rmat.
Hypothesis A_in : forall r c v, inA r c v -> entry A r c = v.
Hypothesis A_out : forall r c, (forall v, ~ inA r c v) -> entry A r c = 0.
Variable X : nat -> R.
Notation row r := (sumR (4 * m) (fun c => entry A r c * X c)).

Ltac out := rewrite A_out by (intros v Hv; inversion Hv; lia).

Lemma row_left i : (i < m)%nat -> row (2 * i)%nat = piece X i (k i).
Proof.
  intros Hi. rewrite sumR_blocks. rewrite (sumR_one m i); auto.
  - rewrite (A_in _ _ _ (A_left i 1 Hi ltac:(lia))), (A_in _ _ _ (A_left i 2 Hi ltac:(lia))), (A_in _ _ _ (A_left i 3 Hi ltac:(lia))).
    pose proof (A_in _ _ _ (A_left i 0 Hi ltac:(lia))) as E0. rewrite Nat.add_0_r in E0. rewrite E0. unfold piece. ring.
  - intros b Hb Nb. do 4 out. ring.
Qed.
Lemma row_right i : (i < m)%nat -> row (2 * i + 1)%nat = piece X i (k (i + 1)%nat).
Proof.
  intros Hi. rewrite sumR_blocks. rewrite (sumR_one m i); auto.
  - rewrite (A_in _ _ _ (A_right i 1 Hi ltac:(lia))), (A_in _ _ _ (A_right i 2 Hi ltac:(lia))), (A_in _ _ _ (A_right i 3 Hi ltac:(lia))).
    pose proof (A_in _ _ _ (A_right i 0 Hi ltac:(lia))) as E0. rewrite Nat.add_0_r in E0. rewrite E0. unfold piece. ring.
  - intros b Hb Nb. do 4 out. ring.
Qed.
Lemma row_first i : (1 <= i < m)%nat -> row (2 * m + i - 1)%nat = piece1 X (i - 1) (k i) - piece1 X i (k i).
Proof.
  intros Hi. rewrite sumR_blocks. rewrite (sumR_two m (i - 1) i); try lia.
  - rewrite (A_in _ _ _ (A_first_a i 1 Hi ltac:(lia))), (A_in _ _ _ (A_first_a i 2 Hi ltac:(lia))), (A_in _ _ _ (A_first_a i 3 Hi ltac:(lia))).
    rewrite (A_in _ _ _ (A_first_b i 1 Hi ltac:(lia))), (A_in _ _ _ (A_first_b i 2 Hi ltac:(lia))), (A_in _ _ _ (A_first_b i 3 Hi ltac:(lia))).
    do 2 out. unfold piece1. simpl. ring.
  - intros b Hb N1 N2. do 4 out. ring.
Qed.
Lemma row_second i : (1 <= i < m)%nat -> row (2 * m + i - 1 + n - 2)%nat = piece2 X (i - 1) (k i) - piece2 X i (k i).
Proof.
  intros Hi. rewrite sumR_blocks. rewrite (sumR_two m (i - 1) i); try lia.
  - rewrite (A_in _ _ _ (A_second_a i 2 Hi ltac:(lia))), (A_in _ _ _ (A_second_a i 3 Hi ltac:(lia))).
    rewrite (A_in _ _ _ (A_second_b i 2 Hi ltac:(lia))), (A_in _ _ _ (A_second_b i 3 Hi ltac:(lia))).
    do 4 out. unfold piece2. simpl. ring.
  - intros b Hb N1 N2. do 4 out. ring.
Qed.
Lemma row_end_a : row (4 * n - 6)%nat = 6 * X 3%nat.
Proof.
  rewrite sumR_blocks. rewrite (sumR_one m 0); try lia.
  - rewrite (A_in _ (4 * 0 + 3)%nat _ A_end_a). do 3 out. simpl. ring.
  - intros b Hb Nb. do 4 out. ring.
Qed.
Lemma row_end_b : row (4 * n - 5)%nat = 6 * X (4 * (n - 2) + 3)%nat.
Proof.
  rewrite sumR_blocks. rewrite (sumR_one m (n - 2)); try lia.
  - rewrite (A_in _ _ _ A_end_b). do 3 out. ring.
  - intros b Hb Nb. do 4 out. ring.
Qed.
End Rows.

(** ** The right-hand sides *)
Variables (u w : nat -> R).  (* row 3 of the two inverses *)
Definition ends_list : list assignment :=
  flat_map (fun i => [((4 * n - 6, i)%nat, 6 * u i); ((4 * n - 5, n - 4 + i)%nat, 6 * w i)]) (seq 0 4).
Inductive inB : nat -> nat -> R -> Prop :=
| B_left i : (i < m)%nat -> inB (2 * i) i 1
| B_right i : (i < m)%nat -> inB (2 * i + 1) (i + 1) 1
| B_end_a i : (i < 4)%nat -> inB (4 * n - 6) i (6 * u i)
| B_end_b i : (i < 4)%nat -> inB (4 * n - 5) (n - 4 + i) (6 * w i).
Lemma inB_iff r c v : In ((r, c), v) (flat_map interpolation_B (seq 0 m) ++ ends_list) <-> inB r c v.
Proof.
  split.
  - intros H. in_flat.
    + destruct H as [H|[H|[]]]; inversion H; subst; constructor; lia.
    + unfold ends_list in H. in_flat. destruct H as [H|[H|[]]]; inversion H; subst; constructor; lia.
  - intros H; destruct H as [i Hi|i Hi|i Hi|i Hi].
    + apply in_or_app. left. apply in_flat_map. exists i. split; [apply in_seq; lia|]. now left.
    + apply in_or_app. left. apply in_flat_map. exists i. split; [apply in_seq; lia|]. right. now left.
    + apply in_or_app. right. apply in_flat_map. exists i. split; [apply in_seq; lia|]. now left.
    + apply in_or_app. right. apply in_flat_map. exists i. split; [apply in_seq; lia|]. right. now left.
Qed.
Lemma inB_fun r c v v' : inB r c v -> inB r c v' -> v = v'.
Proof.
  intros H H'. inversion H as [i|i|i|i]; inversion H' as [i'|i'|i'|i']; subst; try lia; try reflexivity; try (exfalso; lia);
  assert (i' = i) by lia; subst; reflexivity.
Qed.
Lemma inB_range r c v : inB r c v -> (r < 4 * m)%nat /\ (c < n)%nat.
Proof. intros H; inversion H; lia. Qed.
Lemma B_ok : exists B, assign (zeros (4 * m) n) (flat_map interpolation_B (seq 0 m) ++ ends_list) = Ok B /\ shape (4 * m) n B /\
  (forall r c v, inB r c v -> entry B r c = v) /\ (forall r c, (forall v, ~ inB r c v) -> entry B r c = 0).
Proof.
  destruct (assign_ok (4 * m) n (flat_map interpolation_B (seq 0 m) ++ ends_list) (zeros (4 * m) n)) as (B & E & S & V).
  - apply zeros_shape.
  - intros r c v H. apply inB_iff in H. eapply inB_range; eauto.
  - exists B. split; auto. split; auto. split.
    + intros r c v H. rewrite V. apply last_val_in; [now apply inB_iff|].
      intros v' H'. apply inB_iff in H'. symmetry. eapply inB_fun; eauto.
    + intros r c H. rewrite V, last_val_out; [apply entry_zeros|]. intros v Hv. apply inB_iff in Hv. eapply H; eauto.
Qed.

(** The third derivatives at the ends, for the values 1 at knot [c] and 0 elsewhere. *)
Definition end_a (c : nat) : R := if Nat.ltb c 4 then 6 * u c else 0.
Definition end_b (c : nat) : R := if Nat.leb (n - 4) c then 6 * w (c - (n - 4)) else 0.

(** A cubic spline through [y], with third derivatives t0 and t1 at the ends. *)
Record spline (X : nat -> R) (y : nat -> R) (t0 t1 : R) : Prop := {
  s_left : forall i, (i < m)%nat -> piece X i (k i) = y i;
  s_right : forall i, (i < m)%nat -> piece X i (k (i + 1)%nat) = y (i + 1)%nat;
  s_first : forall i, (1 <= i < m)%nat -> piece1 X (i - 1) (k i) = piece1 X i (k i);
  s_second : forall i, (1 <= i < m)%nat -> piece2 X (i - 1) (k i) = piece2 X i (k i);
  s_end_a : 6 * X 3%nat = t0;
  s_end_b : 6 * X (4 * (n - 2) + 3)%nat = t1
}.

Section Solution.
Variables A B : rmat.
Hypothesis A_in : forall r c v, inA r c v -> entry A r c = v.
Hypothesis A_out : forall r c, (forall v, ~ inA r c v) -> entry A r c = 0.
Hypothesis B_in : forall r c v, inB r c v -> entry B r c = v.
Hypothesis B_out : forall r c, (forall v, ~ inB r c v) -> entry B r c = 0.

Lemma B_left_row i c : (i < m)%nat -> entry B (2 * i) c = unit_entry c i.
Proof.
  intros Hi. unfold unit_entry. destruct (Nat.eqb_spec c i) as [->|N]; [apply B_in; now constructor|].
  apply B_out. intros v Hv. inversion Hv; lia.
Qed.
Lemma B_right_row i c : (i < m)%nat -> entry B (2 * i + 1) c = unit_entry c (i + 1).
Proof.
  intros Hi. unfold unit_entry. destruct (Nat.eqb_spec c (i + 1)) as [->|N]; [apply B_in; now constructor|].
  apply B_out. intros v Hv. inversion Hv; lia.
Qed.
Lemma B_zero_row r c : (2 * m <= r)%nat -> (r < 4 * n - 6)%nat -> entry B r c = 0.
Proof. intros H1 H2. apply B_out. intros v Hv. inversion Hv; lia. Qed.
Lemma B_end_a_row c : entry B (4 * n - 6) c = end_a c.
Proof.
  unfold end_a. destruct (Nat.ltb_spec c 4); [apply B_in; now constructor|]. apply B_out. intros v Hv. inversion Hv; lia.
Qed.
Lemma B_end_b_row c : (c < n)%nat -> entry B (4 * n - 5) c = end_b c.
Proof.
  intros Hc. unfold end_b. destruct (Nat.leb_spec (n - 4) c).
  - replace c with (n - 4 + (c - (n - 4)))%nat at 1 by lia. apply B_in. constructor. lia.
  - apply B_out. intros v Hv. inversion Hv; lia.
Qed.
Lemma solution_spline X c : is_solution (4 * m) n A B X -> (c < n)%nat ->
  spline (fun r => entry X r c) (unit_entry c) (end_a c) (end_b c).
Proof.
  intros (_ & _ & E) Hc. constructor.
  - intros i Hi. rewrite <- (row_left A A_in A_out _ i Hi). rewrite E by lia. now apply B_left_row.
  - intros i Hi. rewrite <- (row_right A A_in A_out _ i Hi). rewrite E by lia. now apply B_right_row.
  - intros i Hi. pose proof (row_first A A_in A_out (fun r => entry X r c) i Hi) as F. cbn beta in F. rewrite E in F by lia.
    rewrite B_zero_row in F by lia. lra.
  - intros i Hi. pose proof (row_second A A_in A_out (fun r => entry X r c) i Hi) as F. cbn beta in F. rewrite E in F by lia.
    rewrite B_zero_row in F by lia. lra.
  - pose proof (row_end_a A A_in A_out (fun r => entry X r c)) as F. cbn beta in F. rewrite E in F by lia.
    rewrite B_end_a_row in F. auto.
  - pose proof (row_end_b A A_in A_out (fun r => entry X r c)) as F. cbn beta in F. rewrite E in F by lia.
    rewrite B_end_b_row in F; auto.
Qed.
Lemma spline_solution X : shape (4 * m) n X ->
  (forall c, (c < n)%nat -> spline (fun r => entry X r c) (unit_entry c) (end_a c) (end_b c)) ->
  is_solution (4 * m) n A B X.
Proof.
  intros [S1 S2] HS. split; auto. split; auto. intros r c Hr Hc. specialize (HS c Hc). set (Y := fun r => entry X r c) in *.
  change (sumR (4 * m) (fun j => entry A r j * Y j) = entry B r c).
  destruct (lt_dec r (2 * m)) as [H1|H1].
  { destruct (Nat.Even_or_Odd r) as [(i & ->)|(i & ->)].
    - rewrite (row_left A A_in A_out) by lia. rewrite B_left_row by lia. apply (s_left _ _ _ _ HS). lia.
    - rewrite (row_right A A_in A_out) by lia. rewrite B_right_row by lia. apply (s_right _ _ _ _ HS). lia. }
  destruct (lt_dec r (2 * m + n - 2)) as [H2|H2].
  { set (i := (r + 1 - 2 * m)%nat). assert (Hi : (1 <= i < m)%nat) by lia. replace r with (2 * m + i - 1)%nat by lia.
    rewrite (row_first A A_in A_out) by auto. rewrite B_zero_row by lia. rewrite (s_first _ _ _ _ HS i Hi). ring. }
  destruct (lt_dec r (4 * n - 6)) as [H3|H3].
  { set (i := (r + 1 - 2 * m - (n - 2))%nat). assert (Hi : (1 <= i < m)%nat) by lia. replace r with (2 * m + i - 1 + n - 2)%nat by lia.
    rewrite (row_second A A_in A_out) by auto. rewrite B_zero_row by lia. rewrite (s_second _ _ _ _ HS i Hi). ring. }
  destruct (Nat.eq_dec r (4 * n - 6)) as [->|H4].
  { rewrite (row_end_a A A_in A_out). rewrite B_end_a_row. apply (s_end_a _ _ _ _ HS). }
  replace r with (4 * n - 5)%nat by lia. rewrite (row_end_b A A_in A_out). rewrite B_end_b_row by auto. apply (s_end_b _ _ _ _ HS).
Qed.
End Solution.

(** ** There is a spline: moments by elimination and back substitution *)
Section Exists.
Hypothesis Inc : forall i, (i < m)%nat -> k i < k (i + 1)%nat.
Variables (y : nat -> R) (t0 t1 : R).
Definition h (i : nat) : R := k (i + 1)%nat - k i.
Lemma h_pos i : (i < m)%nat -> 0 < h i.
Proof. intros Hi. unfold h. specialize (Inc i Hi). lra. Qed.
Definition slope (i : nat) : R := (y (i + 1)%nat - y i) / h i.
(** M_j = alpha_j M_(j+1) + beta_j *)
Fixpoint ab (j : nat) : R * R :=
  match j with
  | O => (1, - h 0 * t0)
  | S p => let '(a, b) := ab p in
      let D := h p * (2 + a) + 2 * h (S p) in
      (- h (S p) / D, (6 * (slope (S p) - slope p) - h p * b) / D)
  end.
Definition al j := fst (ab j).
Definition be j := snd (ab j).
Lemma al_range j : (j < m)%nat -> (- (1 / 2) < al j <= 1) /\ ((0 < j)%nat -> al j < 0).
Proof.
  induction j as [|j IH]; intros Hj; [unfold al; simpl; split; [lra|lia]|].
  specialize (IH ltac:(lia)). destruct IH as [IH _]. unfold al in *. cbn [ab]. destruct (ab j) as [a b]. cbn [fst] in *.
  pose proof (h_pos j ltac:(lia)). pose proof (h_pos (S j) Hj). set (D := h j * (2 + a) + 2 * h (S j)).
  assert (D0 : 2 * h (S j) < D) by (unfold D; nra).
  assert (E : h (S j) / D < 1 / 2) by (apply Rmult_lt_reg_r with D; [lra|]; replace (h (S j) / D * D) with (h (S j)) by (field; lra); lra).
  assert (E0 : 0 < h (S j) / D) by (apply Rdiv_lt_0_compat; lra).
  replace (- h (S j) / D) with (- (h (S j) / D)) by (field; lra). split; [|intros _]; lra.
Qed.
Definition Mlast : R := (be (n - 2) + h (n - 2) * t1) / (1 - al (n - 2)).
Fixpoint back (j : nat) : R :=
  match j with O => Mlast | S p => al (n - 2 - p) * back p + be (n - 2 - p) end.
Definition M (i : nat) : R := back (n - 1 - i).
Lemma M_rec i : (i < m)%nat -> M i = al i * M (i + 1)%nat + be i.
Proof.
  intros Hi. unfold M. replace (n - 1 - i)%nat with (S (n - 1 - (i + 1)))%nat by lia. cbn [back].
  replace (n - 2 - (n - 1 - (i + 1)))%nat with i by lia. reflexivity.
Qed.
Lemma M_first : M 1 - M 0 = h 0 * t0.
Proof. rewrite (M_rec 0) by lia. unfold al, be. simpl. ring. Qed.
Lemma M_last : M m - M (n - 2) = h (n - 2) * t1.
Proof.
  rewrite (M_rec (n - 2)) by lia. replace (n - 2 + 1)%nat with m by lia. unfold M. replace (n - 1 - m)%nat with 0%nat by lia. cbn [back].
  destruct (al_range (n - 2) ltac:(lia)) as [_ H]. specialize (H ltac:(lia)). unfold Mlast. field. lra.
Qed.
Lemma M_mid i : (1 <= i < m)%nat -> h (i - 1) * M (i - 1) + 2 * (h (i - 1) + h i) * M i + h i * M (i + 1)%nat = 6 * (slope i - slope (i - 1)).
Proof.
  intros Hi. destruct i as [|i]; [lia|]. replace (S i - 1)%nat with i by lia.
  rewrite (M_rec i) by lia. replace (i + 1)%nat with (S i) by lia. rewrite (M_rec (S i)) by lia.
  destruct (al_range i ltac:(lia)) as [R1 _]. unfold al, be in *. cbn [ab]. destruct (ab i) as [a b]. cbn [fst snd] in *.
  pose proof (h_pos i ltac:(lia)). pose proof (h_pos (S i) ltac:(lia)).
  assert (h i * (2 + a) + 2 * h (S i) <> 0) by nra. field. auto.
Qed.
Definition Cc i := y i / h i - M i * h i / 6.
Definition Dd i := y (i + 1)%nat / h i - M (i + 1)%nat * h i / 6.
Definition coef (i j : nat) : R :=
  let a := k i in let b := k (i + 1)%nat in
  match j with
  | 0%nat => (M i * b ^ 3 - M (i + 1)%nat * a ^ 3) / (6 * h i) + Cc i * b - Dd i * a
  | 1%nat => (- M i * b ^ 2 + M (i + 1)%nat * a ^ 2) / (2 * h i) - Cc i + Dd i
  | 2%nat => (M i * b - M (i + 1)%nat * a) / (2 * h i)
  | _ => (M (i + 1)%nat - M i) / (6 * h i)
  end.
Definition spline_coef (r : nat) : R := coef (r / 4) (r mod 4).
Lemma spline_coef_at i j : (j < 4)%nat -> spline_coef (4 * i + j) = coef i j.
Proof.
  intros Hj. unfold spline_coef. rewrite (Nat.mul_comm 4 i), Nat.div_add_l by lia. rewrite (Nat.add_comm (i * 4)), Nat.mod_add by lia.
  rewrite Nat.div_small, Nat.mod_small by auto. now rewrite Nat.add_0_r.
Qed.
Lemma spline_coef_0 i : spline_coef (4 * i) = coef i 0.
Proof. rewrite <- (spline_coef_at i 0) by lia. now rewrite Nat.add_0_r. Qed.
Lemma spline_exists : spline spline_coef y t0 t1.
Proof.
  constructor.
  - intros i Hi. unfold piece. rewrite spline_coef_0, !spline_coef_at by lia. unfold coef, Cc, Dd.
    pose proof (h_pos i Hi). unfold h in *. field. lra.
  - intros i Hi. unfold piece. rewrite spline_coef_0, !spline_coef_at by lia. unfold coef, Cc, Dd.
    pose proof (h_pos i Hi). unfold h in *. field. lra.
  - intros i Hi. unfold piece1. rewrite !spline_coef_at by lia. unfold coef, Cc, Dd.
    pose proof (M_mid i Hi) as E. unfold slope in E.
    pose proof (h_pos i ltac:(lia)) as P1. pose proof (h_pos (i - 1) ltac:(lia)) as P2. unfold h in *.
    replace (i - 1 + 1)%nat with i in * by lia.
    set (a := k (i - 1)%nat) in *. set (b := k i) in *. set (c := k (i + 1)%nat) in *.
    set (M0 := M (i - 1)) in *. set (M1 := M i) in *. set (M2 := M (i + 1)%nat) in *.
    set (y0 := y (i - 1)%nat) in *. set (y1 := y i) in *. set (y2 := y (i + 1)%nat) in *.
    apply Rminus_diag_uniq.
    match type of E with ?l = ?r => transitivity ((l - r) / 6) end; [field; lra|rewrite E; field; lra].
  - intros i Hi. unfold piece2. rewrite !spline_coef_at by lia. unfold coef.
    pose proof (h_pos i ltac:(lia)) as P1. pose proof (h_pos (i - 1) ltac:(lia)) as P2. unfold h in *.
    replace (i - 1 + 1)%nat with i in * by lia. field. lra.
  - pose proof (spline_coef_at 0 3 ltac:(lia)) as E. simpl (4 * 0 + 3)%nat in E. rewrite E. unfold coef. pose proof M_first as E1.
    pose proof (h_pos 0 ltac:(lia)). replace (0 + 1)%nat with 1%nat by lia. rewrite E1. field. lra.
  - rewrite spline_coef_at by lia. unfold coef. replace (n - 2 + 1)%nat with m by lia. rewrite M_last.
    pose proof (h_pos (n - 2) ltac:(lia)). field. lra.
Qed.
End Exists.
End System.
