From Coq Require Import List Arith Lia.
From Verif Require Import Model.Counting Spec.GridSpec.
Import ListNotations.

Lemma binom_0 n : binom n 0 = 1. Proof. now destruct n. Qed.
Lemma binom_gt n : forall k, n < k -> binom n k = 0.
Proof.
  induction n; intros [|k] H; simpl; try lia. rewrite !IHn; lia.
Qed.
Lemma binom_diag n : binom n n = 1.
Proof. induction n; simpl; auto. rewrite IHn, binom_gt; lia. Qed.

Lemma binom_absorb n : forall j, (j + 1) * binom (S n) (S j) = (n + 1) * binom n j.
Proof.
  induction n; intros j.
  - destruct j; simpl; lia.
  - change (binom (S (S n)) (S j)) with (binom (S n) j + binom (S n) (S j)).
    rewrite Nat.mul_add_distr_l, IHn. destruct j.
    + rewrite !binom_0. lia.
    + pose proof (IHn j) as H. change (binom (S n) (S j)) with (binom n j + binom n (S j)) in *. nia.
Qed.

Lemma binom_step n k : k <= n + 1 -> (n + 1 - k) * binom (S n) k = (n + 1) * binom n k.
Proof.
  intros Hk. destruct k; [rewrite !binom_0; lia|].
  pose proof (binom_absorb n k) as H.
  change (binom (S n) (S k)) with (binom n k + binom n (S k)) in *.
  enough ((n + 1 - S k) * (binom n k + binom n (S k)) + (k + 1) * (binom n k + binom n (S k))
     = (n + 1) * binom n (S k) + (n + 1) * binom n k) by lia.
  rewrite <- Nat.mul_add_distr_r. replace (n + 1 - S k + (k + 1)) with (n + 1) by lia. lia.
Qed.

Lemma choose_binom n k : k <= n -> choose n k = binom n k.
Proof.
  intros H. unfold choose. replace n with (k + (n - k)) at 2 by lia.
  generalize (n - k). intros m. clear.
  induction m.
  - simpl. rewrite Nat.add_0_r, binom_diag. reflexivity.
  - rewrite seq_S, fold_left_app, IHm. cbn [fold_left].
    replace (k + 1 + m) with (k + m + 1) by lia.
    rewrite (Nat.mul_comm (binom _ _)), <- (binom_step (k + m) k) by lia.
    rewrite Nat.mul_comm, Nat.div_mul by lia. now rewrite <- plus_n_Sm.
Qed.
Lemma choose_gt n k : n < k -> choose n k = 1.
Proof. intros H. unfold choose. replace (n - k) with 0 by lia. reflexivity. Qed.

Lemma binom_sym a : forall b, binom (a + b) a = binom (a + b) b.
Proof.
  induction a; intros b.
  - simpl. rewrite binom_0, binom_diag. reflexivity.
  - induction b.
    + rewrite Nat.add_0_r, binom_diag, binom_0. reflexivity.
    + replace (S a + S b) with (S (a + S b)) by lia. cbn [binom].
      replace (a + S b) with (S a + b) at 2 3 by lia. rewrite IHb.
      rewrite (IHa (S b)). replace (a + S b) with (S a + b) by lia. lia.
Qed.

(** B a b = number of multisets *)
Definition B (a b : nat) : nat := binom (a + b) a.
Lemma choose_B a b : choose (a + b) a = B a b.
Proof. apply choose_binom. lia. Qed.
Lemma choose_B' a b : choose (a + b) b = B a b.
Proof. unfold B. rewrite binom_sym. apply choose_binom. lia. Qed.
Lemma B_0_l b : B 0 b = 1. Proof. apply binom_0. Qed.
Lemma B_0_r a : B a 0 = 1. Proof. unfold B. rewrite Nat.add_0_r. apply binom_diag. Qed.
Lemma B_S a b : B (S a) (S b) = B a (S b) + B (S a) b.
Proof.
  unfold B. replace (S a + S b) with (S (a + S b)) by lia. cbn [binom].
  replace (S a + b) with (a + S b) by lia. reflexivity.
Qed.
Lemma B_pos a b : 1 <= B a b.
Proof.
  revert b. induction a; intros b; [rewrite B_0_l; lia|].
  destruct b; [rewrite B_0_r; lia|]. rewrite B_S. specialize (IHa (S b)). lia.
Qed.
Lemma B_mono_S a b : B a b <= B a (S b).
Proof. destruct a; [rewrite !B_0_l; lia|]. rewrite B_S. lia. Qed.
Lemma B_mono a b b' : b <= b' -> B a b <= B a b'.
Proof. induction 1; auto. pose proof (B_mono_S a m). lia. Qed.

(** findNumGridPoints as a sum *)
Fixpoint N3 (d s : nat) : nat :=
  match s with O => 0 | S s' => N3 d s' + B (d - 1) s' * 2 ^ s' end.
Lemma N3_mono d s s' : s <= s' -> N3 d s <= N3 d s'.
Proof. induction 1; auto. cbn [N3]. lia. Qed.
Lemma numGrid_N3 d k : 0 < d -> findNumGridPoints d k = N3 d (k + 1).
Proof.
  intros Hd. unfold findNumGridPoints. destruct (Nat.ltb_spec 0 d); [|lia].
  rewrite Nat.add_1_r. induction (S k); auto.
  rewrite seq_S, fold_left_app, IHn. cbn [fold_left N3]. now rewrite Nat.add_0_l, choose_B'.
Qed.

Lemma choose_total n k : choose n k = if k <=? n then binom n k else 1.
Proof. destruct (Nat.leb_spec k n); [now apply choose_binom|now apply choose_gt]. Qed.
