(** Positive definite matrices: they have inverses, and a principal submatrix of
    the inverse inverts to the form minimised over the other components. *)
From Coq Require Import List Reals Lia Lra Arith.
From Verif Require Import Model.Base Model.Vectors Spec.GLMMSpec Spec.MatrixSpec
  Proofs.GLMMLemmas Proofs.VectorLemmas Proofs.SumLemmas Proofs.NormalMain.
Import ListNotations.
Local Open Scope R_scope.

Definition pd (d : nat) (A : nat -> nat -> R) : Prop :=
  forall z, (exists i, (i < d)%nat /\ z i <> 0) -> 0 < bil d A z z.
Definition sym (d : nat) (A : nat -> nat -> R) : Prop :=
  forall i j, (i < d)%nat -> (j < d)%nat -> A i j = A j i.

Lemma pd_ext d A A' : (forall i j, (i < d)%nat -> (j < d)%nat -> A i j = A' i j) -> pd d A -> pd d A'.
Proof. intros H P z Hz. rewrite <- (bil_ext d A A' z z z z); auto. Qed.
Lemma pd_nonneg d A z : pd d A -> 0 <= bil d A z z.
Proof.
  intros P. assert (Dec : (exists i, (i < d)%nat /\ z i <> 0) \/ (forall i, (i < d)%nat -> z i = 0)).
  { clear P. induction d as [|d IH]; [right; intros; lia|]. destruct IH as [[i [Hi Zi]]|IH].
    - left. exists i. split; [lia|auto].
    - destruct (Req_dec (z d) 0) as [E|E]; [right|left; exists d; split; [lia|auto]].
      intros i Hi. destruct (Nat.eq_dec i d) as [->|]; auto. apply IH. lia. }
  destruct Dec as [H|H]; [left; apply P, H|]. right. symmetry.
  rewrite (bil_ext d A A z (fun _ => 0) z (fun _ => 0)); auto. unfold bil.
  etransitivity; [|apply (sumR_zero d)]. apply sumR_ext. intros i _.
  etransitivity; [|apply (sumR_zero d)]. apply sumR_ext. intros. ring.
Qed.

(** A form in one more component. *)
Lemma bil_S d A z : bil (S d) A z z = bil d A z z + z d * sumR d (fun j => A d j * z j)
  + z d * sumR d (fun i => z i * A i d) + A d d * z d ^ 2.
Proof.
  unfold bil. rewrite sumR_last.
  rewrite (sumR_ext d (fun i => sumR (S d) (fun j => z i * A i j * z j))
             (fun i => sumR d (fun j => z i * A i j * z j) + z i * A i d * z d)) by (intros; apply sumR_last).
  rewrite sumR_plus, sumR_last, (sumR_scal_r d (z d) (fun i => z i * A i d)).
  rewrite (sumR_ext d (fun j => z d * A d j * z j) (fun j => z d * (A d j * z j))) by (intros; ring).
  rewrite sumR_scal. ring.
Qed.

Lemma pd_pivot d A : pd (S d) A -> 0 < A d d.
Proof.
  intros P. pose proof (P (unit_entry d)) as H.
  assert (U : unit_entry d d <> 0) by (unfold unit_entry; rewrite Nat.eqb_refl; lra).
  specialize (H (ex_intro _ d (conj (Nat.lt_succ_diag_r d) U))).
  unfold bil in H. rewrite (sumR_single (S d) d) in H; [|lia|].
  2:{ intros i Hi Hne. rewrite <- (sumR_zero (S d)). apply sumR_ext. intros j _. unfold unit_entry.
      destruct (Nat.eqb_spec d i); [lia|ring]. }
  rewrite (sumR_single (S d) d) in H; [|lia|].
  2:{ intros i Hi Hne. unfold unit_entry at 2. destruct (Nat.eqb_spec d i); [lia|ring]. }
  unfold unit_entry in H. rewrite Nat.eqb_refl in H. lra.
Qed.

Definition schur (d : nat) (A : nat -> nat -> R) (i j : nat) : R := A i j - A i d * A d j / A d d.
Lemma schur_sym d A : sym (S d) A -> sym d (schur d A).
Proof. intros H i j Hi Hj. unfold schur. rewrite (H i j), (H i d), (H d j) by lia. unfold Rdiv. ring. Qed.

Lemma schur_form d A z : sym (S d) A -> A d d <> 0 ->
  bil (S d) A z z = bil d (schur d A) z z + A d d * (z d + sumR d (fun j => A d j * z j) / A d d) ^ 2.
Proof.
  intros H Hp. rewrite bil_S. set (s := sumR d (fun j => A d j * z j)).
  assert (Es : sumR d (fun i => z i * A i d) = s).
  { unfold s. apply sumR_ext. intros i Hi. rewrite (H i d) by lia. ring. }
  rewrite Es.
  assert (E : bil d (schur d A) z z = bil d A z z - s * s / A d d).
  { rewrite (bil_ext d _ (fun i j => A i j + (- / A d d) * (A i d * A d j)) z z z z)
      by (auto; intros; unfold schur; field; auto).
    rewrite bil_plus_A, bil_scal_A.
    assert (E' : bil d (fun i j => A i d * A d j) z z = s * s).
    { unfold bil. rewrite (sumR_ext d _ (fun i => (z i * A i d) * s)).
      - rewrite sumR_scal_r, Es. reflexivity.
      - intros i _. unfold s. rewrite <- sumR_scal. apply sumR_ext. intros j _. ring. }
    rewrite E'. field. auto. }
  rewrite E. field. auto.
Qed.

Lemma schur_pd d A : sym (S d) A -> pd (S d) A -> pd d (schur d A).
Proof.
  intros H P z [i [Hi Zi]]. pose proof (pd_pivot d A P) as Hp.
  set (t := - (sumR d (fun j => A d j * z j) / A d d)).
  set (z' := fun i => if Nat.eqb i d then t else z i).
  assert (Z' : forall i, (i < d)%nat -> z' i = z i).
  { intros j Hj. unfold z'. destruct (Nat.eqb_spec j d); [lia|reflexivity]. }
  assert (Q : 0 < bil (S d) A z' z') by (apply P; exists i; split; [lia|rewrite Z'; auto]).
  rewrite schur_form in Q by (auto; lra).
  rewrite (bil_ext d (schur d A) (schur d A) z' z z' z) in Q by auto.
  rewrite (sumR_ext d (fun j => A d j * z' j) (fun j => A d j * z j)) in Q by (intros; rewrite Z'; auto).
  unfold z' in Q at 1. rewrite Nat.eqb_refl in Q. unfold t in Q.
  replace (- (sumR d (fun j => A d j * z j) / A d d) + sumR d (fun j => A d j * z j) / A d d) with 0 in Q by ring.
  lra.
Qed.

Lemma pd_solve : forall d A, sym d A -> pd d A -> forall b, exists x,
  forall i, (i < d)%nat -> sumR d (fun j => A i j * x j) = b i.
Proof.
  induction d as [|d IH]; intros A H P b; [exists (fun _ => 0); intros; lia|].
  pose proof (pd_pivot d A P) as Hp.
  destruct (IH (schur d A) (schur_sym d A H) (schur_pd d A H P) (fun i => b i - A i d * b d / A d d)) as [x Hx].
  set (s := sumR d (fun j => A d j * x j)).
  exists (fun j => if Nat.eqb j d then (b d - s) / A d d else x j).
  assert (X : forall i, sumR (S d) (fun j => A i j * (if Nat.eqb j d then (b d - s) / A d d else x j))
                = sumR d (fun j => A i j * x j) + A i d * ((b d - s) / A d d)).
  { intros i. rewrite sumR_last, Nat.eqb_refl. f_equal. apply sumR_ext. intros j Hj.
    destruct (Nat.eqb_spec j d); [lia|reflexivity]. }
  intros i Hi. rewrite X. destruct (Nat.eq_dec i d) as [->|Hne].
  - fold s. field. lra.
  - specialize (Hx i ltac:(lia)).
    assert (E : sumR d (fun j => schur d A i j * x j) = sumR d (fun j => A i j * x j) - A i d / A d d * s).
    { unfold s. rewrite <- sumR_scal, <- sumR_minus. apply sumR_ext. intros j _. unfold schur. field. lra. }
    rewrite E in Hx. replace (sumR d (fun j => A i j * x j)) with (b i - A i d * b d / A d d + A i d / A d d * s) by lra.
    field. lra.
Qed.

Definition mat_of (d : nat) (X : nat -> nat -> R) : rmat := map (fun i => map (fun j => X i j) (seq 0 d)) (seq 0 d).
Lemma mat_of_square d X : square d (mat_of d X).
Proof.
  unfold mat_of. split; [rewrite map_length, seq_length; reflexivity|]. intros i Hi.
  rewrite (nth_map_lt _ _ _ _ 0%nat) by (rewrite seq_length; auto). rewrite map_length, seq_length. reflexivity.
Qed.
Lemma mat_of_entry d X i j : (i < d)%nat -> (j < d)%nat -> entry (mat_of d X) i j = X i j.
Proof.
  intros Hi Hj. unfold entry, mat_of. rewrite (nth_map_lt _ _ _ _ 0%nat) by (rewrite seq_length; auto).
  rewrite (nth_map_lt _ _ _ _ 0%nat) by (rewrite seq_length; auto). rewrite !seq_nth by auto. reflexivity.
Qed.

Lemma pd_columns d A : sym d A -> pd d A -> forall m, exists X : nat -> nat -> R,
  forall k, (k < m)%nat -> forall i, (i < d)%nat -> sumR d (fun j => A i j * X j k) = unit_entry i k.
Proof.
  intros H P m. induction m as [|m [X HX]]; [exists (fun _ _ => 0); intros; lia|].
  destruct (pd_solve d A H P (fun i => unit_entry i m)) as [x Hx].
  exists (fun j k => if Nat.eqb k m then x j else X j k). intros k Hk i Hi.
  destruct (Nat.eqb_spec k m) as [->|Hne]; [auto|]. apply HX; auto. lia.
Qed.

(** A right inverse of a symmetric matrix is its inverse. *)
Lemma sym_inverse d M X : square d M -> sym d (entry M) ->
  (forall i k, (i < d)%nat -> (k < d)%nat -> sumR d (fun j => entry M i j * X j k) = unit_entry i k) ->
  are_inverse d M (mat_of d X).
Proof.
  intros SM H HX. split; auto. split; [apply mat_of_square|].
  assert (Sx : forall i j, (i < d)%nat -> (j < d)%nat -> X i j = X j i).
  { intros i j Hi Hj.
    transitivity (sumR d (fun k => unit_entry j k * X i k)).
    { rewrite sumR_delta by auto. reflexivity. }
    transitivity (sumR d (fun k => sumR d (fun l => X k i * entry M k l * X l j))).
    2:{ rewrite (sumR_ext d _ (fun k => X k i * unit_entry k j)).
        - rewrite sumR_delta_r by auto. reflexivity.
        - intros k Hk. rewrite <- (HX k j) by auto. rewrite <- sumR_scal. apply sumR_ext. intros l _. ring. }
    rewrite sumR_swap.
    rewrite (sumR_ext d (fun l => sumR d (fun k => X k i * entry M k l * X l j)) (fun l => unit_entry i l * X l j)).
    2:{ intros l Hl. rewrite unit_entry_sym, <- (HX l i) by auto. rewrite <- sumR_scal_r. apply sumR_ext. intros k Hk.
        rewrite (H k l) by auto. ring. }
    rewrite sumR_delta, sumR_delta by auto. reflexivity. }
  intros i j Hi Hj. unfold row_col. split.
  - rewrite <- (HX i j) by auto. apply sumR_ext. intros k Hk. rewrite mat_of_entry by auto. reflexivity.
  - rewrite unit_entry_sym, <- (HX j i) by auto. apply sumR_ext. intros k Hk. rewrite mat_of_entry by auto.
    rewrite (Sx i k), (H k j) by auto. ring.
Qed.

Lemma pd_inverse d M : square d M -> sym d (entry M) -> pd d (entry M) -> exists B, are_inverse d M B.
Proof.
  intros SM H P. destruct (pd_columns d (entry M) H P d) as [X HX]. exists (mat_of d X).
  apply sym_inverse; auto.
Qed.

(** The inverse is symmetric too, and positive definite. *)
Lemma inverse_apply d P V z i : are_inverse d P V -> (i < d)%nat ->
  sumR d (fun j => entry P i j * sumR d (fun k => entry V j k * z k)) = z i.
Proof.
  intros [_ [_ H]] Hi.
  rewrite (sumR_ext d _ (fun j => sumR d (fun k => entry P i j * entry V j k * z k))).
  2:{ intros j _. rewrite <- sumR_scal. apply sumR_ext. intros; ring. }
  rewrite sumR_swap. rewrite (sumR_ext d _ (fun k => unit_entry i k * z k)); [apply sumR_delta; auto|].
  intros k Hk. rewrite sumR_scal_r. destruct (H i k Hi Hk) as [E _]. unfold row_col in E. rewrite E. reflexivity.
Qed.
Lemma are_inverse_sym d P V : are_inverse d P V -> are_inverse d V P.
Proof. intros (A & B & C). split; auto. split; auto. intros i j Hi Hj. destruct (C i j Hi Hj). auto. Qed.
Lemma inverse_sym d P V : are_inverse d P V -> sym d (entry P) -> sym d (entry V).
Proof.
  intros HI H i j Hi Hj.
  (* V_ij = (V e_j)_i; use V P V^T *)
  assert (G : forall a b, (a < d)%nat -> (b < d)%nat ->
    entry V a b = sumR d (fun k => sumR d (fun l => entry V a k * entry P k l * entry V b l))).
  { intros a b Ha Hb. rewrite sumR_swap.
    rewrite (sumR_ext d _ (fun l => unit_entry a l * entry V b l)).
    2:{ intros l Hl. rewrite sumR_scal_r. destruct HI as (_ & _ & C). destruct (C a l Ha Hl) as [_ E].
        unfold row_col in E. rewrite E. reflexivity. }
    rewrite sumR_delta by auto.
    (* V_ab = V_ba: compute the other way *)
    transitivity (sumR d (fun k => entry V a k * unit_entry k b)); [rewrite sumR_delta_r; auto|].
    destruct HI as (_ & _ & C).
    rewrite (sumR_ext d _ (fun k => sumR d (fun l => entry V a k * entry P k l * entry V b l))).
    2:{ intros k Hk. destruct (C b k Hb Hk) as [_ E]. rewrite unit_entry_sym, <- E. unfold row_col.
        rewrite <- sumR_scal. apply sumR_ext. intros l Hl. rewrite (H l k) by auto. ring. }
    rewrite sumR_swap. rewrite (sumR_ext d _ (fun l => unit_entry a l * entry V b l)).
    2:{ intros l Hl. rewrite sumR_scal_r. destruct (C a l Ha Hl) as [_ E]. unfold row_col in E. rewrite E. reflexivity. }
    apply sumR_delta; auto. }
  rewrite (G i j), (G j i) by auto. rewrite sumR_swap. apply sumR_ext. intros k Hk. apply sumR_ext. intros l Hl.
  rewrite (H l k) by auto. ring.
Qed.

(** Inverses are unique. *)
Lemma inverse_unique d A B B' : are_inverse d A B -> are_inverse d A B' -> B = B'.
Proof.
  intros (SA & SB & C) (_ & SB' & C').
  assert (E : forall i j, (i < d)%nat -> (j < d)%nat -> entry B i j = entry B' i j).
  { intros i j Hi Hj. transitivity (sumR d (fun k => sumR d (fun l => entry B i k * entry A k l * entry B' l j))).
    - transitivity (sumR d (fun k => entry B i k * unit_entry k j)); [rewrite sumR_delta_r; auto|].
      apply sumR_ext. intros k Hk. destruct (C' k j Hk Hj) as [E _]. rewrite <- E. unfold row_col.
      rewrite <- sumR_scal. apply sumR_ext. intros; ring.
    - rewrite sumR_swap. rewrite (sumR_ext d _ (fun l => unit_entry i l * entry B' l j)).
      + exact (sumR_delta d i (fun l => entry B' l j) Hi).
      + intros l Hl. rewrite sumR_scal_r. destruct (C i l Hi Hl) as [_ E]. unfold row_col in E. rewrite E. reflexivity. }
  destruct SB as [L R], SB' as [L' R'].
  apply (nth_ext B B' [] []); [congruence|]. intros i Hi.
  apply (nth_ext _ _ 0 0); [rewrite R, R' by lia; reflexivity|].
  intros j Hj. rewrite R in Hj by lia. apply E; lia.
Qed.

(** ** Marginals *)
Section Marginal.
Variables (d : nat) (P V W : rmat) (rel : list nat).
Notation k := (length rel).
Let at_ a := nth a rel 0%nat.
Hypothesis HI : are_inverse d P V.
Hypothesis Psym : sym d (entry P).
Hypothesis Ppd : pd d (entry P).
Hypothesis ND : NoDup rel.
Hypothesis Hrel : forall i, In i rel -> (i < d)%nat.

Let at_lt a : (a < k)%nat -> (at_ a < d)%nat.
Proof. intros H. apply Hrel, nth_In, H. Qed.
Let pick' a f : (a < k)%nat -> sumR d (fun i => f i * unit_entry (at_ a) i) = f (at_ a).
Proof.
  intros Ha. rewrite (sumR_ext d _ (fun i => unit_entry (at_ a) i * f i)) by (intros; ring).
  apply sumR_delta. apply at_lt, Ha.
Qed.

(** The vector with components u on rel. *)
Definition lift (u : nat -> R) (i : nat) : R := sumR k (fun a => unit_entry (at_ a) i * u a).
Definition spread (u : nat -> R) (j : nat) : R := sumR d (fun i => entry V j i * lift u i).

Lemma spread_apply u i : (i < d)%nat -> sumR d (fun j => entry P i j * spread u j) = lift u i.
Proof. intros Hi. unfold spread. apply (inverse_apply d P V (lift u)); auto. Qed.

Lemma lift_pair y u : sumR d (fun i => y i * lift u i) = sumR k (fun a => y (at_ a) * u a).
Proof.
  unfold lift. rewrite (sumR_ext d _ (fun i => sumR k (fun a => (y i * u a) * unit_entry (at_ a) i))).
  - rewrite sumR_swap. apply sumR_ext. intros a Ha. rewrite pick' by auto. reflexivity.
  - intros i _. rewrite <- sumR_scal. apply sumR_ext. intros a _. ring.
Qed.

Lemma spread_pair y u : bil d (entry P) y (spread u) = sumR k (fun a => y (at_ a) * u a).
Proof.
  rewrite bil_row, <- lift_pair. apply sumR_ext. intros i Hi. rewrite spread_apply by auto. reflexivity.
Qed.

Lemma spread_at u a : (a < k)%nat -> spread u (at_ a) = sumR k (fun b => entry (msubset V rel) a b * u b).
Proof.
  intros Ha. unfold spread. rewrite lift_pair. apply sumR_ext. intros b Hb.
  rewrite entry_msubset by auto. reflexivity.
Qed.

Lemma sub_sym : sym k (entry (msubset V rel)).
Proof.
  intros a b Ha Hb. rewrite !entry_msubset by auto. apply (inverse_sym d P V HI Psym); apply at_lt; auto.
Qed.

Lemma lift_at u a : (a < k)%nat -> lift u (at_ a) = u a.
Proof.
  intros Ha. unfold lift. rewrite (sumR_ext k _ (fun b => unit_entry a b * u b)); [apply sumR_delta; auto|].
  intros b Hb. f_equal. unfold unit_entry, at_. destruct (Nat.eqb_spec (nth b rel 0%nat) (nth a rel 0%nat)) as [E|E], (Nat.eqb_spec a b) as [E'|E']; auto.
  - exfalso. apply E'. symmetry. apply (NoDup_nth_inj rel); auto.
  - exfalso. apply E. subst. reflexivity.
Qed.

Lemma sub_pd : pd k (entry (msubset V rel)).
Proof.
  intros u [a [Ha Ua]].
  assert (E : bil k (entry (msubset V rel)) u u = bil d (entry P) (spread u) (spread u)).
  { rewrite spread_pair, bil_row. apply sumR_ext. intros b Hb. rewrite spread_at by auto. ring. }
  rewrite E. apply Ppd.
  (* P (spread u) is not zero, so neither is spread u *)
  destruct (Rle_lt_dec (Rabs (sumR d (fun j => Rabs (spread u j)))) 0) as [Hz|Hz].
  - exfalso. apply Ua. rewrite <- (lift_at u a Ha), <- spread_apply by (apply at_lt; auto).
    rewrite <- (sumR_zero d). apply sumR_ext. intros j Hj.
    assert (S0 : sumR d (fun j => Rabs (spread u j)) = 0).
    { pose proof (Rabs_pos (sumR d (fun j => Rabs (spread u j)))). destruct (Rcase_abs (sumR d (fun j => Rabs (spread u j)))).
      - rewrite Rabs_left in Hz by auto. lra.
      - rewrite Rabs_right in Hz by auto. lra. }
    assert (Hle : Rabs (spread u j) <= sumR d (fun j => Rabs (spread u j))).
    { rewrite <- (sumR_delta d j (fun j => Rabs (spread u j)) Hj) at 1. apply sumR_le. intros i _.
      unfold unit_entry. destruct (Nat.eqb j i); pose proof (Rabs_pos (spread u i)); lra. }
    pose proof (Rabs_pos (spread u j)). assert (Rabs (spread u j) = 0) by lra.
    destruct (Req_dec (spread u j) 0) as [->|N]; [ring|]. apply Rabs_no_R0 in N. contradiction.
  - assert (Ex : forall n, (exists i, (i < n)%nat /\ spread u i <> 0) \/ sumR n (fun j => Rabs (spread u j)) = 0).
    { clear. induction n as [|n IH]; [right; reflexivity|]. destruct IH as [[i [Hi Zi]]|IH].
      - left. exists i. split; [lia|auto].
      - rewrite sumR_last, IH. destruct (Req_dec (spread u n) 0) as [E|E].
        + right. rewrite E, Rabs_R0. ring.
        + left. exists n. split; [lia|auto]. }
    destruct (Ex d) as [H|H]; auto. rewrite H, Rabs_R0 in Hz. lra.
Qed.

Hypothesis HW : are_inverse k (msubset V rel) W.
Definition best (x : nat -> R) : nat -> R := spread (fun a => sumR k (fun b => entry W a b * x b)).

Lemma best_at x a : (a < k)%nat -> best x (at_ a) = x a.
Proof. intros Ha. unfold best. rewrite spread_at by auto. apply (inverse_apply k _ W x); auto. Qed.
Lemma best_pair y x : (forall a, (a < k)%nat -> y (at_ a) = x a) -> bil d (entry P) y (best x) = bil k (entry W) x x.
Proof.
  intros H. unfold best. rewrite spread_pair, bil_row. apply sumR_ext. intros a Ha. rewrite H by auto. reflexivity.
Qed.
Lemma best_least y x : (forall a, (a < k)%nat -> y (at_ a) = x a) -> bil k (entry W) x x <= bil d (entry P) y y.
Proof.
  intros H. pose proof (pd_nonneg d (entry P) (fun i => y i + - best x i) Ppd) as N.
  assert (E : bil d (entry P) (fun i => y i + - best x i) (fun i => y i + - best x i)
    = bil d (entry P) y y - bil k (entry W) x x).
  { rewrite (bil_expand d (entry P) y (fun i => - best x i)) by (intros; apply Psym; auto).
    assert (E1 : bil d (entry P) y (fun i => - best x i) = - bil k (entry W) x x).
    { rewrite <- (best_pair y x H). unfold bil. rewrite <- sumR_opp. apply sumR_ext. intros i _.
      rewrite <- sumR_opp. apply sumR_ext. intros; ring. }
    assert (E2 : bil d (entry P) (fun i => - best x i) (fun i => - best x i) = bil k (entry W) x x).
    { rewrite <- (best_pair (best x) x) by (intros; apply best_at; auto). unfold bil. apply sumR_ext. intros i _.
      apply sumR_ext. intros; ring. }
    rewrite E1, E2. ring. }
  rewrite E in N. lra.
Qed.
End Marginal.

(** Symmetric matrices with the same form are equal. *)
Lemma form_determines d A A' : sym d A -> sym d A' -> (forall z, bil d A z z = bil d A' z z) ->
  forall i j, (i < d)%nat -> (j < d)%nat -> A i j = A' i j.
Proof.
  intros H H' E i j Hi Hj.
  assert (B : forall M a b, (a < d)%nat -> (b < d)%nat -> bil d M (unit_entry a) (unit_entry b) = M a b).
  { intros M a b Ha Hb. rewrite bil_row.
    rewrite (sumR_delta d a (fun i => sumR d (fun j => M i j * unit_entry b j))) by auto.
    rewrite (sumR_ext d _ (fun j => unit_entry b j * M a j)) by (intros; ring). apply sumR_delta; auto. }
  pose proof (E (fun l => unit_entry i l + unit_entry j l)) as X.
  rewrite !bil_expand in X by auto.
  pose proof (E (unit_entry i)) as X1. pose proof (E (unit_entry j)) as X2.
  rewrite !B in * by auto. lra.
Qed.
