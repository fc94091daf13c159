(** Cubic splines are determined by their conditions, and with knots that lie
    symmetrically about 0 the mirror image of a spline is the spline of the mirrored
    conditions. *)
From Coq Require Import List Reals Lra Lia Arith.
From Verif Require Import Model.Base Model.Vectors Model.BasisLevel Spec.GLMMSpec Spec.MatrixSpec Spec.SplineSpec
  Proofs.SplineLemmas.
Import ListNotations.
Local Open Scope R_scope.

Section Unique.
Variables (n : nat) (k : nat -> R).
Hypothesis Hn : (4 <= n)%nat.
Hypothesis Inc : forall i, (i < n - 1)%nat -> k i < k (i + 1)%nat.

(** A cubic that is zero at both ends of an interval, by its derivatives at the left end. *)
Lemma zero_ends (c0 c1 c2 c3 a b : R) : a < b -> c0 + c1 * a + c2 * a ^ 2 + c3 * a ^ 3 = 0 -> c0 + c1 * b + c2 * b ^ 2 + c3 * b ^ 3 = 0 ->
  let p := c1 + 2 * c2 * a + 3 * c3 * a ^ 2 in let q := 2 * c2 + 6 * c3 * a in
  let h := b - a in
  c3 * h ^ 2 = - (p + q * h / 2) /\
  c1 + 2 * c2 * b + 3 * c3 * b ^ 2 = - 2 * p - q * h / 2 /\
  (2 * c2 + 6 * c3 * b) * h = - 2 * q * h - 6 * p.
Proof.
  intros Hab Ea Eb p q h.
  assert (K : h * (p + q * h / 2 + c3 * h ^ 2) = 0) by (unfold p, q, h; lra).
  assert (Hh : h <> 0) by (unfold h; lra).
  apply Rmult_integral in K. destruct K as [K|K]; [contradiction|].
  assert (E3 : c3 * h ^ 2 = - (p + q * h / 2)) by lra. split; [exact E3|].
  split.
  - replace (c1 + 2 * c2 * b + 3 * c3 * b ^ 2) with (p + q * h + 3 * (c3 * h ^ 2)) by (unfold p, q, h; ring). rewrite E3. lra.
  - replace ((2 * c2 + 6 * c3 * b) * h) with (q * h + 6 * (c3 * h ^ 2)) by (unfold p, q, h; ring). rewrite E3. lra.
Qed.

Section Zero.
Variable D : nat -> R.
Hypothesis SD : spline n k D (fun _ => 0) 0 0.
Notation p i := (piece1 D i (k i)).
Notation q i := (piece2 D i (k i)).
Lemma steps i : (i < n - 1)%nat ->
  let h := k (i + 1)%nat - k i in
  D (4 * i + 3)%nat * h ^ 2 = - (p i + q i * h / 2) /\
  piece1 D i (k (i + 1)%nat) = - 2 * p i - q i * h / 2 /\ piece2 D i (k (i + 1)%nat) * h = - 2 * q i * h - 6 * p i.
Proof.
  intros Hi h. pose proof (s_left _ _ _ _ _ _ SD i Hi) as A. pose proof (s_right _ _ _ _ _ _ SD i Hi) as B. cbn beta in A, B.
  destruct (zero_ends _ _ _ _ _ _ (Inc i Hi) A B) as (E1 & E2 & E3). auto.
Qed.
Lemma next i : (i + 1 < n - 1)%nat -> piece1 D i (k (i + 1)%nat) = p (i + 1)%nat /\ piece2 D i (k (i + 1)%nat) = q (i + 1)%nat.
Proof.
  intros Hi. pose proof (s_first _ _ _ _ _ _ SD (i + 1)%nat ltac:(lia)) as A. pose proof (s_second _ _ _ _ _ _ SD (i + 1)%nat ltac:(lia)) as B.
  replace (i + 1 - 1)%nat with i in * by lia. auto.
Qed.
(** If the first piece is not zero, first and second derivative have the same sign at
    every later knot. *)
Lemma grow : q 0%nat <> 0 -> forall i, (1 <= i < n - 1)%nat -> 0 < p i * q i.
Proof.
  intros Q i. induction i as [|i IH]; intros Hi; [lia|]. pose proof (Inc i ltac:(lia)) as Hk. set (h := k (i + 1)%nat - k i).
  assert (Hh : 0 < h) by (unfold h; lra).
  destruct (steps i ltac:(lia)) as (E1 & E2 & E3). fold h in E1, E2, E3. destruct (next i ltac:(lia)) as [N1 N2].
  rewrite N1 in E2. rewrite N2 in E3. replace (S i) with (i + 1)%nat by lia.
  set (p' := p (i + 1)%nat) in *. set (q' := q (i + 1)%nat) in *. set (a := p i) in *. set (c := q i) in *.
  assert (E : p' * q' * h = (2 * a + c * h / 2) * (2 * c * h + 6 * a)).
  { replace (p' * q' * h) with (p' * (q' * h)) by ring. rewrite E2, E3. ring. }
  assert (0 < p' * q' * h).
  { rewrite E. destruct (Nat.eq_dec i 0) as [->|Ni].
    - pose proof (s_end_a _ _ _ _ _ _ SD) as Z. change (4 * 0 + 3)%nat with 3%nat in E1.
      assert (Z3 : D 3%nat = 0) by lra. rewrite Z3 in E1. assert (Ea : a = - (c * h / 2)) by lra. rewrite Ea.
      replace ((2 * - (c * h / 2) + c * h / 2) * (2 * c * h + 6 * - (c * h / 2))) with ((c * h) ^ 2 / 2) by field.
      assert (0 < (c * h) ^ 2); [|lra]. rewrite <- Rsqr_pow2. apply Rsqr_pos_lt. apply Rmult_integral_contrapositive_currified; [exact Q|lra].
    - specialize (IH ltac:(lia)). fold a c in IH.
      replace ((2 * a + c * h / 2) * (2 * c * h + 6 * a)) with (7 * (a * c) * h + 12 * a ^ 2 + (c * h) ^ 2) by field.
      assert (0 <= a ^ 2) by apply pow2_ge_0. assert (0 <= (c * h) ^ 2) by apply pow2_ge_0.
      assert (0 < a * c * h) by now apply Rmult_lt_0_compat. lra. }
  apply (Rmult_lt_reg_r h); lra.
Qed.
Lemma start_zero : q 0%nat = 0.
Proof.
  destruct (Req_dec (q 0%nat) 0) as [E|Q]; [exact E|exfalso]. pose proof (grow Q (n - 2)%nat ltac:(lia)) as G.
  destruct (steps (n - 2)%nat ltac:(lia)) as (E1 & _). pose proof (s_end_b _ _ _ _ _ _ SD) as Z.
  assert (Z3 : D (4 * (n - 2) + 3)%nat = 0) by lra. rewrite Z3 in E1.
  pose proof (Inc (n - 2)%nat ltac:(lia)) as Hk. set (h := k (n - 2 + 1)%nat - k (n - 2)%nat) in *. assert (Hh : 0 < h) by (unfold h; lra).
  set (a := p (n - 2)%nat) in *. set (c := q (n - 2)%nat) in *. assert (Ea : a = - (c * h / 2)) by lra. rewrite Ea in G.
  assert (0 <= c ^ 2 * h) by (apply Rmult_le_pos; [apply pow2_ge_0|lra]). replace (- (c * h / 2) * c) with (- (c ^ 2 * h / 2)) in G by field. lra.
Qed.
Lemma all_zero i : (i < n - 1)%nat -> p i = 0 /\ q i = 0 /\ D (4 * i + 3)%nat = 0.
Proof.
  assert (T : forall i, (i < n - 1)%nat -> p i = 0 -> q i = 0 -> D (4 * i + 3)%nat = 0).
  { intros j Hj P Q. destruct (steps j Hj) as (E & _). rewrite P, Q in E. pose proof (Inc j Hj).
    assert (K : D (4 * j + 3)%nat * (k (j + 1)%nat - k j) ^ 2 = 0) by lra.
    apply Rmult_integral in K. destruct K as [K|K]; [exact K|]. exfalso. apply (pow_nonzero (k (j + 1)%nat - k j) 2); [lra|exact K]. }
  induction i as [|i IH]; intros Hi.
  - pose proof start_zero as Q. destruct (steps 0%nat ltac:(lia)) as (E & _). pose proof (s_end_a _ _ _ _ _ _ SD) as Z.
    change (4 * 0 + 3)%nat with 3%nat in *. assert (Z3 : D 3%nat = 0) by lra. rewrite Q, Z3 in E. split; [lra|]. split; [exact Q|exact Z3].
  - destruct (IH ltac:(lia)) as (P & Q & Z). destruct (steps i ltac:(lia)) as (_ & E2 & E3). destruct (next i ltac:(lia)) as [N1 N2].
    replace (S i) with (i + 1)%nat by lia. rewrite N1, P, Q in E2. rewrite N2, P, Q in E3. pose proof (Inc i ltac:(lia)).
    assert (Q' : q (i + 1)%nat = 0).
    { apply (Rmult_eq_reg_r (k (i + 1)%nat - k i)); lra. }
    assert (P' : p (i + 1)%nat = 0) by lra. split; [exact P'|]. split; [exact Q'|]. apply T; auto. lia.
Qed.
Lemma zero_spline r : (r < 4 * (n - 1))%nat -> D r = 0.
Proof.
  intros Hr. pose proof (Nat.div_mod r 4 ltac:(lia)) as E. pose proof (Nat.mod_upper_bound r 4 ltac:(lia)) as M.
  set (i := (r / 4)%nat) in *. assert (Hi : (i < n - 1)%nat) by lia. destruct (all_zero i Hi) as (P & Q & Z).
  pose proof (s_left _ _ _ _ _ _ SD i Hi) as A. unfold piece in A. unfold piece1 in P. unfold piece2 in Q. rewrite Z in *.
  assert (Z2 : D (4 * i + 2)%nat = 0) by lra. rewrite Z2 in *. assert (Z1 : D (4 * i + 1)%nat = 0) by lra. rewrite Z1 in *.
  assert (Z0 : D (4 * i)%nat = 0) by lra. rewrite E.
  destruct (r mod 4)%nat as [|[|[|[|]]]]; try lia; rewrite ?Nat.add_0_r; auto.
Qed.
End Zero.

Lemma spline_minus X X' y t0 t1 : spline n k X y t0 t1 -> spline n k X' y t0 t1 -> spline n k (fun r => X r - X' r) (fun _ => 0) 0 0.
Proof.
  intros [a1 a2 a3 a4 a5 a6] [b1 b2 b3 b4 b5 b6]. constructor.
  - intros i Hi. specialize (a1 i Hi). specialize (b1 i Hi). unfold piece in *. lra.
  - intros i Hi. specialize (a2 i Hi). specialize (b2 i Hi). unfold piece in *. lra.
  - intros i Hi. specialize (a3 i Hi). specialize (b3 i Hi). unfold piece1 in *. lra.
  - intros i Hi. specialize (a4 i Hi). specialize (b4 i Hi). unfold piece2 in *. lra.
  - lra.
  - lra.
Qed.
Lemma spline_unique X X' y t0 t1 : spline n k X y t0 t1 -> spline n k X' y t0 t1 -> forall r, (r < 4 * (n - 1))%nat -> X r = X' r.
Proof. intros H H' r Hr. pose proof (zero_spline _ (spline_minus _ _ _ _ _ H H') r Hr). cbn beta in *. lra. Qed.

(** * Mirror images *)
Hypothesis Sym : forall i, (i < n)%nat -> k (n - 1 - i)%nat = - k i.
Definition mirror_coef (X : nat -> R) (r : nat) : R := (-1) ^ (r mod 4) * X (4 * (n - 2 - r / 4) + r mod 4)%nat.
Lemma mirror_at X i j : (j < 4)%nat -> mirror_coef X (4 * i + j) = (-1) ^ j * X (4 * (n - 2 - i) + j)%nat.
Proof.
  intros Hj. unfold mirror_coef. rewrite (Nat.mul_comm 4 i), Nat.div_add_l by lia. rewrite (Nat.add_comm (i * 4) j), Nat.mod_add by lia.
  rewrite Nat.div_small, Nat.mod_small by auto. now rewrite Nat.add_0_r.
Qed.
Lemma mirror_at0 X i : mirror_coef X (4 * i) = X (4 * (n - 2 - i))%nat.
Proof. rewrite <- (Nat.add_0_r (4 * i)), mirror_at by lia. rewrite Nat.add_0_r. cbn [pow]. ring. Qed.
Lemma mirror_piece X i x : piece (mirror_coef X) i x = piece X (n - 2 - i) (- x).
Proof. unfold piece. rewrite mirror_at0, !mirror_at by lia. ring. Qed.
Lemma mirror_piece1 X i x : piece1 (mirror_coef X) i x = - piece1 X (n - 2 - i) (- x).
Proof. unfold piece1. rewrite !mirror_at by lia. ring. Qed.
Lemma mirror_piece2 X i x : piece2 (mirror_coef X) i x = piece2 X (n - 2 - i) (- x).
Proof. unfold piece2. rewrite !mirror_at by lia. ring. Qed.
Lemma spline_mirror X y t0 t1 : spline n k X y t0 t1 -> spline n k (mirror_coef X) (fun i => y (n - 1 - i)%nat) (- t1) (- t0).
Proof.
  intros [a1 a2 a3 a4 a5 a6]. constructor.
  - intros i Hi. rewrite mirror_piece, <- Sym by lia. replace (n - 1 - i)%nat with (n - 2 - i + 1)%nat by lia. apply a2. lia.
  - intros i Hi. rewrite mirror_piece, <- Sym by lia. replace (n - 1 - (i + 1))%nat with (n - 2 - i)%nat by lia. apply a1. lia.
  - intros i Hi. rewrite !mirror_piece1, <- Sym by lia. replace (n - 2 - (i - 1))%nat with (n - 1 - i)%nat by lia.
    replace (n - 2 - i)%nat with (n - 1 - i - 1)%nat by lia. rewrite (a3 (n - 1 - i)%nat) by lia. reflexivity.
  - intros i Hi. rewrite !mirror_piece2, <- Sym by lia. replace (n - 2 - (i - 1))%nat with (n - 1 - i)%nat by lia.
    replace (n - 2 - i)%nat with (n - 1 - i - 1)%nat by lia. rewrite (a4 (n - 1 - i)%nat) by lia. reflexivity.
  - pose proof (mirror_at X 0 3 ltac:(lia)) as E. rewrite Nat.sub_0_r in E. change (4 * 0 + 3)%nat with 3%nat in E. rewrite E, <- a6. ring.
  - rewrite (mirror_at X (n - 2) 3) by lia. rewrite Nat.sub_diag. change (4 * 0 + 3)%nat with 3%nat. rewrite <- a5. ring.
Qed.
End Unique.
