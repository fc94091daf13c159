(** Lemmas for C82. *)
From Coq Require Import List Reals Arith Lia Lra Classical.
From Verif Require Import Model.Vectors Model.IS Model.NormalApprox Spec.GLMMSpec Spec.MatrixSpec Spec.FactorSpec Proofs.GLMMLemmas Proofs.SumLemmas.
Import ListNotations.
Local Open Scope R_scope.

Lemma nth_map_in {A B} (f : A -> B) l i d e : (i < length l)%nat -> nth i (map f l) e = f (nth i l d).
Proof. revert i. induction l as [|a l IH]; intros [|i] H; cbn in *; try lia; [reflexivity|apply IH; lia]. Qed.
Lemma transpose_square n A : square n A -> square n (transpose n A).
Proof.
  intros [L _]. unfold transpose. split; [rewrite map_length, seq_length; reflexivity|].
  intros i I. rewrite (nth_map_in _ _ i 0%nat) by (rewrite seq_length; exact I). unfold column. now rewrite map_length.
Qed.
Lemma entry_transpose n A i j : square n A -> (i < n)%nat -> (j < n)%nat -> entry (transpose n A) i j = entry A j i.
Proof.
  intros [L _] I J. unfold entry, transpose. rewrite (nth_map_in _ _ i 0%nat) by (rewrite seq_length; exact I).
  unfold column. rewrite (nth_map_in _ _ j []) by lia. rewrite seq_nth by exact I. reflexivity.
Qed.
Lemma mmul_square n A B : square n A -> square n B -> square n (mmul n A B).
Proof.
  intros [LA _] _. unfold mmul. split; [now rewrite map_length|]. intros i I.
  rewrite (nth_map_in _ _ i []) by lia. rewrite map_length. unfold transpose. now rewrite map_length, seq_length.
Qed.
Lemma entry_mmul n A B i j : square n A -> square n B -> (i < n)%nat -> (j < n)%nat ->
  entry (mmul n A B) i j = sumR n (fun k => entry A i k * entry B k j).
Proof.
  intros SA SB I J. pose proof (transpose_square n B SB) as [LT RT]. destruct SA as [LA RA]. unfold entry at 1, mmul.
  rewrite (nth_map_in _ _ i []) by lia. rewrite (nth_map_in _ _ j []) by lia.
  rewrite (vdot_sum _ _ n) by (auto). apply sumR_ext. intros k K. f_equal. exact (entry_transpose n B j k SB J K).
Qed.
Lemma surjective n p : permutes n p -> forall i, (i < n)%nat -> exists k, (k < n)%nat /\ p k = i.
Proof.
  intros [B J] i I. assert (D : NoDup (map p (seq 0 n))).
  { apply (NoDup_nth _ 0%nat). rewrite map_length, seq_length. intros a b A C.
    rewrite !(nth_map_in _ _ _ 0%nat) by (rewrite seq_length; assumption). rewrite !seq_nth by assumption. cbn. now apply J. }
  assert (H : incl (seq 0 n) (map p (seq 0 n))).
  { apply NoDup_length_incl; [exact D|now rewrite map_length|]. intros x X. apply in_map_iff in X. destruct X as (k & <- & K).
    apply in_seq in K. apply in_seq. specialize (B k ltac:(lia)). lia. }
  assert (M : In i (map p (seq 0 n))) by (apply H, in_seq; lia). apply in_map_iff in M. destruct M as (k & E & K).
  apply in_seq in K. exists k. split; [lia|exact E].
Qed.
Lemma pick n p P k j f : permutation_matrix n p P -> permutes n p -> (k < n)%nat -> p k = j ->
  sumR n (fun l => entry P l j * f l) = f k.
Proof.
  intros [_ E] [B J] K <-. rewrite (sumR_single n k).
  - rewrite (E k (p k) K (B k K)), Nat.eqb_refl. ring.
  - exact K.
  - intros l Ll N. rewrite (E l (p k) Ll (B k K)). destruct (Nat.eqb_spec (p k) (p l)) as [H|_]; [|ring].
    exfalso. apply N. symmetry. now apply J.
Qed.
Lemma precision_main a p A : permutes (af_n a) p -> permutation_matrix (af_n a) p (af_P a) -> factor_of (af_n a) p (af_L a) A ->
  square (af_n a) (na_precision (compute_normal_approx a)) /\
  forall i j, (i < af_n a)%nat -> (j < af_n a)%nat -> entry (na_precision (compute_normal_approx a)) i j = entry A i j.
Proof.
  destruct a as [dev delu n L P]. cbn [af_n af_P af_L compute_normal_approx na_precision]. intros Pp PM [SL F]. pose proof (proj1 PM) as SP.
  assert (ST : square n (tcrossprod n L)) by (apply mmul_square; [|apply transpose_square]; exact SL).
  assert (SM : square n (mmul n (transpose n P) (tcrossprod n L))) by (apply mmul_square; [apply transpose_square; exact SP|exact ST]).
  split; [now apply mmul_square|]. intros i j I J.
  destruct (surjective n p Pp i I) as (k & K & Ek). destruct (surjective n p Pp j J) as (l & Ll & El).
  assert (T : forall u v, (u < n)%nat -> (v < n)%nat -> entry (tcrossprod n L) u v = entry A (p u) (p v)).
  { intros u v U V. unfold tcrossprod. rewrite entry_mmul; [|exact SL|now apply transpose_square|exact U|exact V].
    rewrite <- (F u v U V). apply sumR_ext. intros w W. now rewrite (entry_transpose n L w v SL W V). }
  rewrite (entry_mmul n _ P i j SM SP I J).
  rewrite (sumR_ext n _ (fun v => entry P v j * entry (tcrossprod n L) k v)).
  - rewrite (pick n p P l j _ PM Pp Ll El). rewrite (T k l K Ll). now rewrite Ek, El.
  - intros v V. rewrite Rmult_comm. f_equal. rewrite entry_mmul; [|now apply transpose_square|exact ST|exact I|exact V].
    rewrite (sumR_ext n _ (fun u => entry P u i * entry (tcrossprod n L) u v)).
    + now rewrite (pick n p P k i (fun u => entry (tcrossprod n L) u v) PM Pp K Ek).
    + intros u U. now rewrite (entry_transpose n P i u SP I U).
Qed.
Lemma symmetric_main a p A : permutes (af_n a) p -> permutation_matrix (af_n a) p (af_P a) -> factor_of (af_n a) p (af_L a) A ->
  symmetric (af_n a) (na_precision (compute_normal_approx a)).
Proof.
  intros Pp PM F i j I J. destruct (precision_main a p A Pp PM F) as [_ E]. rewrite (E i j I J), (E j i J I).
  destruct (surjective _ p Pp i I) as (k & K & <-). destruct (surjective _ p Pp j J) as (l & Ll & <-).
  destruct F as [_ F]. rewrite <- (F k l K Ll), <- (F l k Ll K). apply sumR_ext. intros w _. apply Rmult_comm.
Qed.
(** A sum over all numbers below n is the sum in the order p. *)
Lemma sumR_reorder n p f : permutes n p -> sumR n (fun i => f (p i)) = sumR n f.
Proof.
  intros Pp. rewrite (sumR_ext n (fun i => f (p i)) (fun i => sumR n (fun j => unit_entry (p i) j * f j))).
  2: { intros i I. symmetry. apply sumR_delta. now apply Pp. }
  rewrite sumR_swap. apply sumR_ext. intros j J. rewrite sumR_scal_r.
  destruct (surjective n p Pp j J) as (k & K & E). rewrite (sumR_single n k); [|exact K|].
  - unfold unit_entry. rewrite E, Nat.eqb_refl. ring.
  - intros i I N. unfold unit_entry. destruct (Nat.eqb_spec (p i) j) as [H|_]; [|reflexivity].
    exfalso. apply N. apply Pp; [exact I|exact K|now rewrite E].
Qed.
Lemma form_squares n p L A x : permutes n p -> factor_of n p L A ->
  form n A x = sumR n (fun k => (sumR n (fun i => entry L i k * x (p i))) ^ 2).
Proof.
  intros Pp [_ F]. unfold form. rewrite <- (sumR_reorder n p _ Pp).
  rewrite (sumR_ext n _ (fun i => sumR n (fun k => sumR n (fun j => (entry L i k * x (p i)) * (entry L j k * x (p j)))))).
  - rewrite sumR_swap. apply sumR_ext. intros k K.
    rewrite (sumR_ext n _ (fun i => entry L i k * x (p i) * sumR n (fun j => entry L j k * x (p j)))) by (intros i _; apply sumR_scal).
    rewrite sumR_scal_r. ring.
  - intros i I. rewrite <- (sumR_reorder n p _ Pp). rewrite sumR_swap. apply sumR_ext. intros j J. rewrite <- (F i j I J).
    rewrite (sumR_ext n (fun k => entry L i k * x (p i) * (entry L j k * x (p j))) (fun k => (entry L i k * entry L j k) * (x (p i) * x (p j)))) by (intros; ring).
    rewrite sumR_scal_r. ring.
Qed.
Lemma sumR_positive n f : (forall i, (i < n)%nat -> 0 <= f i) -> (exists i, (i < n)%nat /\ f i <> 0) -> 0 < sumR n f.
Proof.
  induction n as [|n IH]; intros H (i & I & N); [lia|]. rewrite sumR_last.
  assert (P : 0 <= sumR n f) by (rewrite <- (sumR_zero n); apply sumR_le; intros; apply H; lia). pose proof (H n ltac:(lia)) as Q.
  destruct (Nat.eq_dec i n) as [->|D]; [lra|].
  assert (0 < sumR n f) by (apply IH; [intros; apply H; lia|exists i; split; [lia|exact N]]). lra.
Qed.
(** The last row with a nonzero component gives a column whose sum is not zero. *)
Lemma last_nonzero n (y : nat -> R) : (exists i, (i < n)%nat /\ y i <> 0) ->
  exists k, (k < n)%nat /\ y k <> 0 /\ forall i, (k < i < n)%nat -> y i = 0.
Proof.
  induction n as [|n IH]; intros (i & I & N); [lia|]. destruct (classic (y n = 0)) as [Z|Z].
  - destruct IH as (k & K & Y & U).
    + exists i. split; [|exact N]. destruct (Nat.eq_dec i n) as [->|D]; [contradiction|lia].
    + exists k. split; [lia|]. split; [exact Y|]. intros j J. destruct (Nat.eq_dec j n) as [->|D]; [exact Z|apply U; lia].
  - exists n. split; [lia|]. split; [exact Z|]. intros j J. lia.
Qed.
Lemma positive_main a p A : permutes (af_n a) p -> permutation_matrix (af_n a) p (af_P a) -> factor_of (af_n a) p (af_L a) A ->
  lower (af_n a) (af_L a) -> positive_definite (af_n a) (na_precision (compute_normal_approx a)).
Proof.
  intros Pp PM F [LT LD] x (i & I & N). destruct (precision_main a p A Pp PM F) as [_ E]. set (n := af_n a) in *. set (L := af_L a) in *.
  assert (G : form n (na_precision (compute_normal_approx a)) x = form n A x).
  { unfold form. apply sumR_ext. intros u U. apply sumR_ext. intros v V. now rewrite (E u v U V). }
  rewrite G, (form_squares n p L A x Pp F). apply sumR_positive; [intros; apply pow2_ge_0|].
  destruct (last_nonzero n (fun u => x (p u))) as (k & K & Y & Z).
  { destruct (surjective n p Pp i I) as (u & U & Eu). exists u. split; [exact U|]. now rewrite Eu. }
  exists k. split; [exact K|]. apply pow_nonzero. rewrite (sumR_single n k); [|exact K|].
  - apply Rmult_integral_contrapositive_currified; [now apply LD|exact Y].
  - intros u U D. destruct (Nat.lt_ge_cases u k) as [H|H].
    + rewrite (LT u k U K H). ring.
    + rewrite Z by lia. ring.
Qed.
Lemma values_main a : af_deviance a = -2 * l_laplace (compute_normal_approx a) /\ na_mean (compute_normal_approx a) = af_delu a.
Proof. cbn [compute_normal_approx l_laplace na_mean]. split; [field|reflexivity]. Qed.
