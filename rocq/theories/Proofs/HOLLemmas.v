(** The derivatives of sums of functions of linear predictors, and their contractions. *)
From Coq Require Import List Reals ZArith Bool Arith Lia Lra.
From Coquelicot Require Import Coquelicot.
From Verif Require Import Model.Base Spec.FamilySpec Spec.GLMMSpec Spec.MatrixSpec Spec.HOLSpec Proofs.FamilyLemmas Proofs.GLMMLemmas Proofs.SumLemmas.
Import ListNotations.
Local Open Scope R_scope.

Section Tower.
Variables (n d : nat) (c : nat -> R) (V : nat -> nat -> R) (f : nat -> nat -> R -> R).
Hypothesis F : forall j k t, (j < 4)%nat -> (k < n)%nat -> is_derive (f j k) t (f (S j) k t).

Definition lin (k : nat) (u : list R) : R := c k + sumR d (fun i => V k i * nth i u 0).
Definition part (j : nat) (a : nat -> R) (u : list R) : R := sumR n (fun k => f j k (lin k u) * a k).

Lemma lin_upd k u i t : (i < d)%nat -> length u = d -> lin k (upd u i t) = lin k u + V k i * (t - nth i u 0).
Proof.
  intros Hi LU. unfold lin. rewrite Rplus_assoc. f_equal.
  transitivity (sumR d (fun a => V k a * nth a u 0 + unit_entry i a * (V k i * (t - nth i u 0)))).
  - apply sumR_ext. intros a Ha. unfold unit_entry. destruct (Nat.eqb_spec i a) as [<-|N]; [rewrite nth_upd_eq by lia; ring|rewrite nth_upd_ne by congruence; ring].
  - rewrite sumR_plus. f_equal. exact (sumR_delta d i (fun _ => V k i * (t - nth i u 0)) Hi).
Qed.

Lemma lin_derive k u i : (i < d)%nat -> length u = d -> is_derive (fun t => lin k (upd u i t)) (nth i u 0) (V k i).
Proof.
  intros Hi LU. apply (is_derive_ext (fun t => lin k u + V k i * (t - nth i u 0))); [intros t; symmetry; now apply lin_upd|].
  auto_derive; [trivial|ring].
Qed.

Lemma upd_same {A} (l : list A) i x : (i < length l)%nat -> upd l i (nth i l x) = l.
Proof. revert i. induction l as [|a l IH]; intros [|i] H; cbn in *; try lia; [reflexivity|]. f_equal. apply IH. lia. Qed.

Lemma part_derive j a u i : (j < 4)%nat -> (i < d)%nat -> length u = d ->
  is_partial_n (part j a) i 1 u (part (S j) (fun k => a k * V k i) u).
Proof.
  intros Hj Hi LU. unfold is_partial_n, part. cbn [is_derive_n Derive_n].
  apply (is_derive_R_ext (fun t => sumR n (fun k => f j k (lin k (upd u i t)) * a k)) _ _ (sumR n (fun k => V k i * f (S j) k (lin k u) * a k))); [reflexivity|apply sumR_ext; intros; ring|].
  apply (sumR_derive n (fun k t => f j k (lin k (upd u i t)) * a k)). intros k Hk.
  apply (is_derive_R_ext (fun t => a k * f j k (lin k (upd u i t))) _ _ (a k * (V k i * f (S j) k (lin k u)))); [intros; ring|ring|].
  apply (is_derive_scal (fun t => f j k (lin k (upd u i t)))). apply (is_derive_comp (f j k) (fun t => lin k (upd u i t))); [|now apply lin_derive].
  rewrite upd_same by lia. apply F; assumption.
Qed.

Definition quadratic (u : list R) : R := sumR d (fun i => nth i u 0 ^ 2) / 2.
Lemma quadratic_derive u i : (i < d)%nat -> length u = d -> is_partial_n quadratic i 1 u (nth i u 0).
Proof.
  intros Hi LU. unfold is_partial_n. cbn [is_derive_n Derive_n].
  apply (is_derive_ext (fun t => quadratic u + (t ^ 2 - nth i u 0 ^ 2) / 2)).
  - intros t. unfold quadratic. set (A := sumR d (fun a => nth a (upd u i t) 0 ^ 2)). assert (E : A = sumR d (fun a => nth a u 0 ^ 2) + (t ^ 2 - nth i u 0 ^ 2)); [|rewrite E; unfold plus; cbn; field].
    transitivity (sumR d (fun a => nth a u 0 ^ 2 + unit_entry i a * (t ^ 2 - nth i u 0 ^ 2))).
    + apply sumR_ext. intros a Ha. unfold unit_entry. destruct (Nat.eqb_spec i a) as [<-|N]; [rewrite nth_upd_eq by lia; ring|rewrite nth_upd_ne by congruence; ring].
    + rewrite sumR_plus. f_equal. exact (sumR_delta d i (fun _ => t ^ 2 - nth i u 0 ^ 2) Hi).
  - auto_derive; [trivial|field].
Qed.
Lemma coordinate_derive u i j : (i < d)%nat -> (j < d)%nat -> length u = d -> is_partial_n (fun v => nth i v 0) j 1 u (unit_entry i j).
Proof.
  intros Hi Hj LU. assert (Hu : (i < length u)%nat) by lia. unfold is_partial_n. cbn [is_derive_n Derive_n]. unfold unit_entry. destruct (Nat.eqb_spec i j) as [<-|N].
  - apply (is_derive_ext (fun t => t)); [intros t; symmetry; exact (nth_upd_eq u i t 0 Hu)|apply (is_derive_id (nth i u 0))].
  - apply (is_derive_ext (fun _ => nth i u 0)); [intros t; symmetry; apply nth_upd_ne; congruence|apply (is_derive_const (nth i u 0))].
Qed.
Lemma partial_plus (g h : list R -> R) i u a b : is_partial_n g i 1 u a -> is_partial_n h i 1 u b -> is_partial_n (fun v => g v + h v) i 1 u (a + b).
Proof. intros G H. unfold is_partial_n in *. cbn [is_derive_n Derive_n] in *. exact (is_derive_plus _ _ _ _ _ G H). Qed.
Lemma partial_const (x : R) i u : is_partial_n (fun _ => x) i 1 u 0.
Proof. unfold is_partial_n. cbn [is_derive_n Derive_n]. exact (is_derive_const x _). Qed.
Lemma partial_eq (g h : list R -> R) i u a b : length u = d -> (forall v, length v = d -> g v = h v) -> a = b -> is_partial_n g i 1 u a -> is_partial_n h i 1 u b.
Proof.
  intros LU E <- G. unfold is_partial_n in *. cbn [is_derive_n Derive_n] in *. apply (is_derive_ext (fun t => g (upd u i t))); [|exact G].
  intros t. apply E. now rewrite upd_length.
Qed.

Variable (g : list R -> R) (z : R).
Hypothesis G : forall u, length u = d -> g u = part 0 (fun _ => 1) u + quadratic u + z.

Definition g1 (i : nat) (u : list R) : R := part 1 (fun k => V k i) u + nth i u 0.
Definition g2 (i j : nat) (u : list R) : R := part 2 (fun k => V k i * V k j) u + unit_entry i j.
Definition g3 (i j k : nat) (u : list R) : R := part 3 (fun o => V o i * V o j * V o k) u.
Definition g4 (i j k l : nat) (u : list R) : R := part 4 (fun o => V o i * V o j * V o k * V o l) u.

Lemma tower : derivatives4 d g g1 g2 g3 g4.
Proof.
  constructor.
  - intros i u Hi LU. apply (partial_eq (fun v => part 0 (fun _ => 1) v + quadratic v + z) _ i u (part 1 (fun k => 1 * V k i) u + nth i u 0 + 0)); [exact LU|intros; now rewrite G| |].
    + unfold g1. rewrite Rplus_0_r. f_equal. apply sumR_ext. intros. ring.
    + apply partial_plus; [apply partial_plus; [apply part_derive; [lia|assumption|assumption]|now apply quadratic_derive]|apply partial_const].
  - intros i j u Hi Hj LU. apply partial_plus; [apply part_derive; [lia|assumption|assumption]|now apply coordinate_derive].
  - intros i j k u Hi Hj Hk LU. apply (partial_eq (g2 i j) _ k u (part 3 (fun o => V o i * V o j * V o k) u + 0)); [exact LU|reflexivity|unfold g3; ring|].
    apply partial_plus; [apply part_derive; [lia|assumption|assumption]|apply partial_const].
  - intros i j k l u Hi Hj Hk Hl LU. apply part_derive; [lia|assumption|assumption].
Qed.
End Tower.

Lemma partial_unique (g h : list R -> R) d i u a b : length u = d -> (forall v, length v = d -> g v = h v) -> is_partial_n g i 1 u a -> is_partial_n h i 1 u b -> a = b.
Proof.
  intros LU E A B. apply (partial_eq d _ h i u a a LU E eq_refl) in A. unfold is_partial_n in *. cbn [is_derive_n Derive_n] in *.
  apply is_derive_unique in A. apply is_derive_unique in B. congruence.
Qed.
Lemma tower_unique d g a1 a2 a3 a4 b1 b2 b3 b4 : derivatives4 d g a1 a2 a3 a4 -> derivatives4 d g b1 b2 b3 b4 ->
  (forall i j k u, (i < d)%nat -> (j < d)%nat -> (k < d)%nat -> length u = d -> a3 i j k u = b3 i j k u) /\
  (forall i j k l u, (i < d)%nat -> (j < d)%nat -> (k < d)%nat -> (l < d)%nat -> length u = d -> a4 i j k l u = b4 i j k l u).
Proof.
  intros A B.
  assert (E1 : forall i u, (i < d)%nat -> length u = d -> a1 i u = b1 i u).
  { intros i u Hi LU. apply (partial_unique g g d i u); [exact LU|reflexivity|now apply A|now apply B]. }
  assert (E2 : forall i j u, (i < d)%nat -> (j < d)%nat -> length u = d -> a2 i j u = b2 i j u).
  { intros i j u Hi Hj LU. apply (partial_unique (a1 i) (b1 i) d j u); [exact LU|intros; now apply E1|now apply A|now apply B]. }
  assert (E3 : forall i j k u, (i < d)%nat -> (j < d)%nat -> (k < d)%nat -> length u = d -> a3 i j k u = b3 i j k u).
  { intros i j k u Hi Hj Hk LU. apply (partial_unique (a2 i j) (b2 i j) d k u); [exact LU|intros; now apply E2|now apply A|now apply B]. }
  split; [exact E3|]. intros i j k l u Hi Hj Hk Hl LU. apply (partial_unique (a3 i j k) (b3 i j k) d l u); [exact LU|intros; now apply E3|now apply A|now apply B].
Qed.

(** Contractions. *)
Lemma pull1 n d (a : nat -> R) (W : nat -> nat -> nat -> R) :
  sumR d (fun k => sumR d (fun t => sumR n (fun o => a o * W o k t))) = sumR n (fun o => a o * sumR d (fun k => sumR d (W o k))).
Proof.
  transitivity (sumR d (fun k => sumR n (fun o => a o * sumR d (W o k)))).
  - apply sumR_ext. intros k _. rewrite sumR_swap. apply sumR_ext. intros o _. apply sumR_scal.
  - rewrite sumR_swap. apply sumR_ext. intros o _. exact (sumR_scal d (a o) (fun k => sumR d (W o k))).
Qed.
Lemma pull2 n d (a : nat -> nat -> R) (W : nat -> nat -> nat -> nat -> R) :
  sumR d (fun k => sumR d (fun t => sumR n (fun o => sumR n (fun p => a o p * W o p k t)))) = sumR n (fun o => sumR n (fun p => a o p * sumR d (fun k => sumR d (W o p k)))).
Proof.
  transitivity (sumR d (fun k => sumR n (fun o => sumR n (fun p => a o p * sumR d (W o p k))))).
  - apply sumR_ext. intros k _. rewrite sumR_swap. apply sumR_ext. intros o _. rewrite sumR_swap. apply sumR_ext. intros p _. apply sumR_scal.
  - rewrite sumR_swap. apply sumR_ext. intros o _. rewrite sumR_swap. apply sumR_ext. intros p _. exact (sumR_scal d (a o p) (fun k => sumR d (W o p k))).
Qed.

Lemma product n (f g : nat -> R) x : sumR n f * sumR n g * x = sumR n (fun o => sumR n (fun p => f o * g p * x)).
Proof.
  rewrite Rmult_assoc, <- sumR_scal_r. apply sumR_ext. intros o _. rewrite <- sumR_scal_r, <- sumR_scal. apply sumR_ext. intros. ring.
Qed.

Lemma contract n d (G : nat -> nat -> R) (V : nat -> nat -> R) (c3 c4 : nat -> R) :
  let M o p := sumR d (fun i => sumR d (fun j => V o i * G i j * V p j)) in
  second_order d G (fun i j k => sumR n (fun o => c3 o * (V o i * V o j * V o k))) (fun i j k l => sumR n (fun o => c4 o * (V o i * V o j * V o k * V o l))) =
  - (1 / 8) * sumR n (fun o => c4 o * M o o ^ 2) + 1 / 12 * sumR n (fun o => sumR n (fun p => c3 o * c3 p * M o p ^ 3))
  + 1 / 8 * sumR n (fun o => sumR n (fun p => c3 o * c3 p * (M o o * M o p * M p p))).
Proof.
  intros M. unfold second_order. f_equal; [f_equal|]; f_equal.
  - transitivity (sumR d (fun i => sumR d (fun j => sumR n (fun o => c4 o * M o o * (V o i * G i j * V o j))))).
    + apply sumR_ext. intros i _. apply sumR_ext. intros j _.
      transitivity (sumR n (fun o => c4 o * (V o i * G i j * V o j) * M o o)); [|apply sumR_ext; intros; ring]. unfold M.
      rewrite <- (pull1 n d (fun o => c4 o * (V o i * G i j * V o j)) (fun o k l => V o k * G k l * V o l)).
      apply sumR_ext. intros k _. apply sumR_ext. intros l _. rewrite Rmult_assoc, <- sumR_scal_r. apply sumR_ext. intros. ring.
    + rewrite (pull1 n d (fun o => c4 o * M o o) (fun o i j => V o i * G i j * V o j)). apply sumR_ext. intros. fold (M i i). ring.
  - transitivity (sumR d (fun i => sumR d (fun r => sumR d (fun j => sumR d (fun s => sumR n (fun o => sumR n (fun p => c3 o * c3 p * (V o i * G i r * V p r) * M o p * (V o j * G j s * V p s)))))))).
    { apply sumR_ext. intros i _. apply sumR_ext. intros r _. apply sumR_ext. intros j _. apply sumR_ext. intros s _.
      transitivity (sumR n (fun o => sumR n (fun p => c3 o * c3 p * (V o i * G i r * V p r) * (V o j * G j s * V p s) * M o p))); [|apply sumR_ext; intros; apply sumR_ext; intros; ring].
      unfold M. rewrite <- (pull2 n d (fun o p => c3 o * c3 p * (V o i * G i r * V p r) * (V o j * G j s * V p s)) (fun o p k t => V o k * G k t * V p t)).
      apply sumR_ext. intros k _. apply sumR_ext. intros t _. rewrite (Rmult_assoc _ (G i r)), (Rmult_assoc _ (G i r * G j s)), product.
      apply sumR_ext. intros o _. apply sumR_ext. intros p _. ring. }
    transitivity (sumR d (fun i => sumR d (fun r => sumR n (fun o => sumR n (fun p => c3 o * c3 p * M o p * M o p * (V o i * G i r * V p r)))))).
    { apply sumR_ext. intros i _. apply sumR_ext. intros r _.
      rewrite (pull2 n d (fun o p => c3 o * c3 p * (V o i * G i r * V p r) * M o p) (fun o p j s => V o j * G j s * V p s)).
      apply sumR_ext. intros o _. apply sumR_ext. intros p _. fold (M o p). ring. }
    rewrite (pull2 n d (fun o p => c3 o * c3 p * M o p * M o p) (fun o p j s => V o j * G j s * V p s)).
    apply sumR_ext. intros o _. apply sumR_ext. intros p _. fold (M o p). ring.
  - transitivity (sumR d (fun i => sumR d (fun j => sumR d (fun k => sumR d (fun r => sumR n (fun o => sumR n (fun p => c3 o * c3 p * (V o i * G i j * V o j) * M p p * (V o k * G k r * V p r)))))))).
    { apply sumR_ext. intros i _. apply sumR_ext. intros j _. apply sumR_ext. intros k _. apply sumR_ext. intros r _.
      transitivity (sumR n (fun o => sumR n (fun p => c3 o * c3 p * (V o i * G i j * V o j) * (V o k * G k r * V p r) * M p p))); [|apply sumR_ext; intros; apply sumR_ext; intros; ring].
      unfold M. rewrite <- (pull2 n d (fun o p => c3 o * c3 p * (V o i * G i j * V o j) * (V o k * G k r * V p r)) (fun o p s t => V p s * G s t * V p t)).
      apply sumR_ext. intros s _. apply sumR_ext. intros t _. rewrite (Rmult_assoc _ (G i j)), (Rmult_assoc _ (G i j * G k r)), product.
      apply sumR_ext. intros o _. apply sumR_ext. intros p _. ring. }
    transitivity (sumR d (fun i => sumR d (fun j => sumR n (fun o => sumR n (fun p => c3 o * c3 p * M p p * M o p * (V o i * G i j * V o j)))))).
    { apply sumR_ext. intros i _. apply sumR_ext. intros j _.
      rewrite (pull2 n d (fun o p => c3 o * c3 p * (V o i * G i j * V o j) * M p p) (fun o p j s => V o j * G j s * V p s)).
      apply sumR_ext. intros o _. apply sumR_ext. intros p _. fold (M o p). ring. }
    rewrite (pull2 n d (fun o p => c3 o * c3 p * M p p * M o p) (fun o p j s => V o j * G j s * V o s)).
    apply sumR_ext. intros o _. apply sumR_ext. intros p _. fold (M o o). ring.
Qed.

Lemma second_order_ext d G a3 a4 b3 b4 :
  (forall i j k, (i < d)%nat -> (j < d)%nat -> (k < d)%nat -> a3 i j k = b3 i j k) ->
  (forall i j k l, (i < d)%nat -> (j < d)%nat -> (k < d)%nat -> (l < d)%nat -> a4 i j k l = b4 i j k l) ->
  second_order d G a3 a4 = second_order d G b3 b4.
Proof.
  intros E3 E4. unfold second_order. f_equal; [f_equal|]; f_equal; repeat (apply sumR_ext; intros).
  - rewrite E4 by assumption. reflexivity.
  - rewrite !E3 by assumption. reflexivity.
  - rewrite !E3 by assumption. reflexivity.
Qed.
