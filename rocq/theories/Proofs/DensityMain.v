(** C55: normal densities integrate to one. *)
From Coq Require Import List Reals Lia Lra Arith.
From Coquelicot Require Import Coquelicot.
From Verif Require Import Model.Base Model.Vectors Model.MultiNormal Spec.GLMMSpec Spec.MatrixSpec Spec.HermiteSpec Spec.ISSpec Spec.DensitySpec
  Proofs.GLMMLemmas Proofs.VectorLemmas Proofs.SumLemmas Proofs.NormalMain Proofs.LineIntegral Proofs.Gaussian Proofs.PosDef.
Import ListNotations.
Local Open Scope R_scope.

(** One component. *)
Lemma kernel_line a m : 0 < a -> integral (fun t => exp (- (1 / 2) * (a * (t - m) ^ 2))) (sqrt (2 * PI) / sqrt a).
Proof.
  intros Ha. pose proof (sqrt_lt_R0 a Ha) as Hs. pose proof PI_RGT_0 as Hpi.
  assert (H2 : 0 < sqrt (2 * PI)) by (apply sqrt_lt_R0; lra).
  pose proof (is_line_affine phi (sqrt a) (- (sqrt a * m)) 1 Hs phi_line) as H.
  pose proof (is_line_scal _ (sqrt (2 * PI) / sqrt a) _ H) as H'. rewrite Rmult_1_r in H'.
  refine (is_line_ext _ _ _ _ H'). intros x. cbn beta. unfold phi.
  replace (- ((sqrt a * x + - (sqrt a * m)) * (sqrt a * x + - (sqrt a * m))) / 2) with (- (1 / 2) * (a * (x - m) ^ 2)).
  - field. lra.
  - rewrite <- (sqrt_sqrt a) at 1 by lra. field.
Qed.

Lemma integral_over_ext d : forall g g' v, (forall x, length x = d -> g x = g' x) -> integral_over d g v -> integral_over d g' v.
Proof.
  induction d as [|d IH]; intros g g' v E H.
  - cbn in *. rewrite <- E; auto.
  - destruct H as (h & H1 & H2). exists h. split; auto. intros x Hx.
    apply (is_line_ext (fun t => g (x ++ [t]))); [|apply H1; auto]. intros t. apply E. rewrite app_length. cbn. lia.
Qed.

(** Elimination of the last component, one after the other. *)
Fixpoint pivots (d : nat) (A : nat -> nat -> R) : R :=
  match d with O => 1 | S d' => A d' d' * pivots d' (schur d' A) end.
Lemma pivots_pos d : forall A, sym d A -> pd d A -> 0 < pivots d A.
Proof.
  induction d as [|d IH]; intros A H P; cbn; [lra|]. apply Rmult_lt_0_compat; [apply (pd_pivot d A P)|].
  apply IH; [apply schur_sym|apply schur_pd]; auto.
Qed.

Lemma gaussian_integral d : forall A m c, sym d A -> pd d A ->
  integral_over d (fun x => exp (c + - (1 / 2) * bil d A (fun i => nth i x 0 - m i) (fun i => nth i x 0 - m i)))
    (exp (c + INR d * ln (sqrt (2 * PI)) - 1 / 2 * ln (pivots d A))).
Proof.
  induction d as [|d IH]; intros A m c H P.
  - cbn. rewrite ln_1. f_equal. unfold bil, sumR. cbn. ring.
  - pose proof (pd_pivot d A P) as Hp. pose proof PI_RGT_0 as Hpi.
    assert (H2 : 0 < sqrt (2 * PI)) by (apply sqrt_lt_R0; lra).
    pose proof (sqrt_lt_R0 _ Hp) as Hs.
    pose proof (pivots_pos d _ (schur_sym d A H) (schur_pd d A H P)) as Hq.
    pose proof (IH (schur d A) m (c + ln (sqrt (2 * PI) / sqrt (A d d))) (schur_sym d A H) (schur_pd d A H P)) as I.
    replace (exp (c + INR (S d) * ln (sqrt (2 * PI)) - 1 / 2 * ln (pivots (S d) A))) with
      (exp (c + ln (sqrt (2 * PI) / sqrt (A d d)) + INR d * ln (sqrt (2 * PI)) - 1 / 2 * ln (pivots d (schur d A)))).
    2:{ f_equal. cbn [pivots]. rewrite ln_mult by auto. rewrite S_INR. unfold Rdiv at 1.
        rewrite ln_mult, ln_Rinv by auto using Rinv_0_lt_compat.
        assert (E : ln (A d d) = ln (sqrt (A d d)) + ln (sqrt (A d d))) by (rewrite <- ln_mult, sqrt_sqrt by lra; reflexivity).
        rewrite E. field. }
    cbn [integral_over]. eexists. split; [|exact I]. intros x Hx. cbn beta.
    set (z := fun i => nth i x 0 - m i).
    set (s := sumR d (fun j => A d j * z j) / A d d).
    pose proof (kernel_line (A d d) (m d - s) Hp) as K.
    apply (is_line_scal _ (exp (c + - (1 / 2) * bil d (schur d A) z z))) in K.
    replace (exp (c + ln (sqrt (2 * PI) / sqrt (A d d)) + - (1 / 2) * bil d (schur d A) z z)) with
      (exp (c + - (1 / 2) * bil d (schur d A) z z) * (sqrt (2 * PI) / sqrt (A d d))).
    2:{ rewrite <- (exp_ln (sqrt (2 * PI) / sqrt (A d d))) at 1 by (apply Rdiv_lt_0_compat; auto).
        rewrite <- exp_plus. f_equal. ring. }
    refine (is_line_ext _ _ _ _ K). intros t. cbn beta. rewrite <- exp_plus. f_equal.
    set (z' := fun i => nth i (x ++ [t]) 0 - m i).
    rewrite (schur_form d A z') by (auto; lra).
    assert (Z : forall i, (i < d)%nat -> z' i = z i) by (intros i Hi; unfold z', z; rewrite app_nth1 by lia; reflexivity).
    rewrite (bil_ext d (schur d A) (schur d A) z' z z' z) by auto.
    rewrite (sumR_ext d (fun j => A d j * z' j) (fun j => A d j * z j)) by (intros; rewrite Z; auto). fold s.
    replace (z' d) with (t - m d) by (unfold z'; rewrite app_nth2, Hx, Nat.sub_diag by lia; reflexivity).
    ring.
Qed.

(** The determinant is the product of the pivots. *)
Section Det.
Variables (D : nat) (determinant : rmat -> R).
Hypothesis Hdet : determinants D determinant.

Lemma det_ext F G : (forall i j, (i < D)%nat -> (j < D)%nat -> F i j = G i j) ->
  determinant (mat_of D F) = determinant (mat_of D G).
Proof.
  intros E. f_equal. unfold mat_of. apply map_ext_in. intros i Hi. apply map_ext_in. intros j Hj.
  apply in_seq in Hi, Hj. apply E; lia.
Qed.
Lemma det_add F i j c : (i < D)%nat -> (j < D)%nat -> i <> j ->
  determinant (mat_of D (fun k l => if Nat.eqb k i then F i l + c * F j l else F k l)) = determinant (mat_of D F).
Proof.
  intros Hi Hj Hne. apply (de_row D determinant Hdet (mat_of D F) _ i j c); auto using mat_of_square.
  intros k l Hk Hl. rewrite !mat_of_entry by auto. reflexivity.
Qed.
(** Clearing column j above the diagonal, rows below n. *)
Lemma det_clear F j : (j < D)%nat -> F j j <> 0 -> forall n, (n <= j)%nat ->
  determinant (mat_of D (fun k l => if Nat.ltb k n then F k l - F k j / F j j * F j l else F k l)) = determinant (mat_of D F).
Proof.
  intros Hj Hp. induction n as [|n IH]; intros Hn; [apply det_ext; reflexivity|].
  rewrite <- IH by lia. set (G := fun k l : nat => if Nat.ltb k n then F k l - F k j / F j j * F j l else F k l).
  etransitivity; [|apply (det_add G n j (- (F n j / F j j))); lia]. apply det_ext. intros k l Hk Hl. unfold G.
  destruct (Nat.eqb_spec k n) as [->|Hne].
  - rewrite (proj2 (Nat.ltb_lt n (S n))) by lia. rewrite Nat.ltb_irrefl.
    destruct (Nat.ltb_spec j n); [lia|]. ring.
  - destruct (Nat.ltb_spec k (S n)), (Nat.ltb_spec k n); try lia; reflexivity.
Qed.

(** A matrix that is lower triangular from column d on. *)
Lemma det_pivots d : (d <= D)%nat -> forall A F, sym d A -> pd d A ->
  (forall i j, (i < d)%nat -> (j < d)%nat -> F i j = A i j) ->
  (forall i j, (i < j)%nat -> (d <= j)%nat -> (j < D)%nat -> F i j = 0) ->
  determinant (mat_of D F) = pivots d A * prodR (D - d) (fun k => F (d + k)%nat (d + k)%nat).
Proof.
  induction d as [|d IH]; intros Hd A F H P EA EF.
  - rewrite (de_triangular D determinant Hdet); [|apply mat_of_square|].
    + cbn [pivots]. rewrite Rmult_1_l, Nat.sub_0_r.
      assert (E : forall n, (n <= D)%nat -> prodR n (fun i => entry (mat_of D F) i i) = prodR n (fun k => F (0 + k)%nat (0 + k)%nat)).
      { induction n as [|n IHn]; intros Hn; [reflexivity|]. cbn [prodR]. rewrite IHn by lia. rewrite mat_of_entry by lia. reflexivity. }
      apply E. lia.
    + intros i j Hi Hj. rewrite mat_of_entry by lia. apply EF; lia.
  - pose proof (pd_pivot d A P) as Hp.
    assert (Fd : F d d = A d d) by (apply EA; lia).
    rewrite <- (det_clear F d ltac:(lia) ltac:(lra) d (le_n d)).
    rewrite (IH ltac:(lia) (schur d A) _ (schur_sym d A H) (schur_pd d A H P)).
    + cbn [pivots]. 
      assert (E : forall n, (n <= D - d)%nat -> prodR n (fun k => (fun k l => if Nat.ltb k d then F k l - F k d / F d d * F d l else F k l) (d + k)%nat (d + k)%nat)
         = prodR n (fun k => F (d + k)%nat (d + k)%nat)).
      { induction n as [|n IHn]; intros Hn; [reflexivity|]. cbn [prodR]. rewrite IHn by lia.
        destruct (Nat.ltb_spec (d + n) d); [lia|reflexivity]. }
      rewrite E by lia.
      assert (E' : forall n, prodR (S n) (fun k => F (d + k)%nat (d + k)%nat) = F d d * prodR n (fun k => F (S d + k)%nat (S d + k)%nat)).
      { induction n as [|n IHn]; [cbn; rewrite Nat.add_0_r; ring|]. cbn [prodR] in *. rewrite IHn.
        replace (d + S n)%nat with (S d + n)%nat by lia. ring. }
      replace (D - d)%nat with (S (D - S d)) by lia. rewrite E', Fd. ring.
    + intros i j Hi Hj. rewrite (proj2 (Nat.ltb_lt i d)) by lia. unfold schur. rewrite !EA by lia. unfold Rdiv. ring.
    + intros i j Hij Hdj Hj. destruct (Nat.ltb_spec i d).
      * destruct (Nat.eq_dec j d) as [->|]; [|rewrite (EF i j), (EF d j) by lia; ring].
        field. lra.
      * apply EF; lia.
Qed.
Lemma mat_of_same P : square D P -> mat_of D (entry P) = P.
Proof.
  intros HP. destruct (mat_of_square D (entry P)) as [L R0]. destruct HP as [L' R'].
  apply (nth_ext _ _ [] []); [congruence|]. intros i Hi. rewrite L in Hi.
  apply (nth_ext _ _ 0 0); [rewrite R0, R'; auto|]. intros j Hj. rewrite R0 in Hj by auto.
  exact (mat_of_entry D (entry P) i j Hi Hj).
Qed.
Lemma det_is_pivots P : square D P -> sym D (entry P) -> pd D (entry P) -> determinant P = pivots D (entry P).
Proof.
  intros HP H P0. rewrite <- (mat_of_same P HP) at 1. rewrite (det_pivots D (le_n D) (entry P)); auto.
  - rewrite Nat.sub_diag. cbn. ring.
  - intros; lia.
Qed.
End Det.

Lemma positive_pd_list d P : positive d P -> pd d (entry P).
Proof.
  intros H z (i & Hi & Zi). pose proof (H (map z (seq 0 d))) as Q. rewrite quad_bil in Q.
  assert (E : forall i, (i < d)%nat -> nth i (map z (seq 0 d)) 0 - nth i (repeat 0 d) 0 = z i).
  { intros j Hj. rewrite (nth_map_lt z (seq 0 d) j 0 0%nat) by (rewrite seq_length; auto). rewrite seq_nth by auto.
    rewrite (nth_repeat 0 d j). cbn. ring. }
  rewrite (bil_ext d (entry P) (entry P) _ z _ z) in Q by auto. apply Q.
  - rewrite map_length, seq_length. reflexivity.
  - exists i. split; auto. rewrite (nth_map_lt z (seq 0 d) i 0 0%nat) by (rewrite seq_length; auto). rewrite seq_nth by auto. exact Zi.
Qed.

Lemma normal_integral determinant n d : determinants d determinant ->
  length (no_mean n) = d -> square d (no_precision n) -> sym d (entry (no_precision n)) -> pd d (entry (no_precision n)) ->
  no_normalizer n = - INR d * logSqrtTwoPi + 1 / 2 * ln (determinant (no_precision n)) ->
  integral_over d (fun x => exp (normal_evaluate n x)) (exp (INR d * (ln (sqrt (2 * PI)) - logSqrtTwoPi))).
Proof.
  intros Hd Lm Hq Hs Hp En.
  pose proof (gaussian_integral d (entry (no_precision n)) (fun i => nth i (no_mean n) 0) (no_normalizer n) Hs Hp) as G.
  rewrite <- (det_is_pivots d determinant Hd _ Hq Hs Hp) in G.
  replace (INR d * (ln (sqrt (2 * PI)) - logSqrtTwoPi)) with
    (no_normalizer n + INR d * ln (sqrt (2 * PI)) - 1 / 2 * ln (determinant (no_precision n))) by (rewrite En; ring).
  eapply integral_over_ext; [|exact G]. intros x Hx. cbn beta. f_equal.
  rewrite (evaluate_quad n d Hq Lm x Hx), quad_bil. ring.
Qed.

Lemma C55_main inverse determinant solve d n : determinants d determinant ->
  (exists mean P, n = normal_given inverse determinant mean P) \/
  (exists location g H, length location = d /\ n = normal_from_derivatives inverse determinant solve location g H) \/
  (exists a b subset, n = multiplySubset inverse determinant a b subset) \/
  (exists a b subset, n = divideSubset inverse determinant a b subset) \/
  (exists a items, n = computeMarginal inverse determinant a items) \/
  (exists a item, n = integrate_item inverse determinant a item) ->
  length (no_mean n) = d -> square d (no_precision n) -> symmetric d (no_precision n) -> positive d (no_precision n) ->
  integral_over d (fun x => exp (normal_evaluate n x)) (exp (INR d * (ln (sqrt (2 * PI)) - logSqrtTwoPi))).
Proof.
  intros Hd Hn Lm Hq Hs Hp. apply (normal_integral determinant); auto; [apply positive_pd_list; auto|].
  destruct Hn as [(m & P & ->)|[(l & g & H & Ll & ->)|[(a & b & s & ->)|[(a & b & s & ->)|[(a & s & ->)|(a & i & ->)]]]]].
  - cbn in *. unfold initializeNormalizer. cbn [no_mean]. rewrite Lm. reflexivity.
  - cbn in *. unfold initializeNormalizer. cbn [no_mean]. rewrite repeat_length, Ll. reflexivity.
  - rewrite <- Lm. reflexivity.
  - rewrite <- Lm. reflexivity.
  - rewrite <- Lm. reflexivity.
  - rewrite <- Lm. reflexivity.
Qed.
