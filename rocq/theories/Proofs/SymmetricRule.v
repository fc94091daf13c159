(** The Gauss-Hermite rule does not change when its nodes change sign. *)
From Coq Require Import List Reals Lia Lra Arith.
From Verif Require Import Model.Base Model.Vectors Model.Quadrature Spec.GLMMSpec Spec.MatrixSpec Spec.HermiteSpec
  Proofs.GLMMLemmas Proofs.VectorLemmas Proofs.SumLemmas Proofs.GaussMain Proofs.HermiteMain.
Import ListNotations.
Local Open Scope R_scope.

(** * Interpolation *)
Fixpoint roots (xs : list R) : list R :=
  match xs with [] => [1] | x :: t => padd (vscale (- x) (roots t)) (0 :: roots t) end.
Lemma roots_poly xs y : poly (roots xs) y = fold_right (fun x p => (y - x) * p) 1 xs.
Proof.
  induction xs as [|x xs IH]; [cbn; ring|]. cbn [roots fold_right]. rewrite padd_poly, vscale_poly, IH.
  change (poly (0 :: roots xs) y) with (0 + y * poly (roots xs) y). rewrite IH. ring.
Qed.
Lemma roots_length xs : length (roots xs) = S (length xs).
Proof. induction xs as [|x xs IH]; [reflexivity|]. cbn [roots length]. rewrite padd_length, vscale_length. cbn [length]. rewrite IH. lia. Qed.
Lemma prod_zero xs y : In y xs -> fold_right (fun x p => (y - x) * p) 1 xs = 0.
Proof. induction xs as [|x xs IH]; intros H; [destruct H|]. cbn. destruct H as [->|H]; [ring|]. rewrite IH by exact H. ring. Qed.
Lemma prod_nonzero xs y : ~ In y xs -> fold_right (fun x p => (y - x) * p) 1 xs <> 0.
Proof.
  induction xs as [|x xs IH]; intros H; [cbn; lra|]. cbn. apply Rmult_integral_contrapositive_currified.
  - intros E. apply H. left. lra.
  - apply IH. intros I. apply H. now right.
Qed.

Lemma interpolation (h : R -> R) xs : NoDup xs -> exists p, (length p <= length xs)%nat /\ forall x, In x xs -> poly p x = h x.
Proof.
  induction xs as [|x xs IH]; intros N; [exists []; split; [cbn; lia|intros x []]|].
  inversion N as [|? ? N1 N2]; subst. destruct (IH N2) as [p [L E]].
  exists (padd p (vscale ((h x - poly p x) / poly (roots xs) x) (roots xs))). split.
  - rewrite padd_length, vscale_length, roots_length. cbn [length]. lia.
  - intros y [->|Y]; rewrite padd_poly, vscale_poly.
    + rewrite roots_poly. field. now apply prod_nonzero.
    + rewrite (roots_poly xs y), prod_zero by exact Y. rewrite E by exact Y. ring.
Qed.

Lemma moment_odd k : forall c, moment k * c ^ k = moment k * c ^ k * (if Nat.even k then 1 else 0).
Proof.
  assert (G : forall k, (Nat.even k = false -> moment k = 0) /\ (Nat.even (S k) = false -> moment (S k) = 0)).
  { clear k. induction k as [|k [IH1 IH2]]; [split; [discriminate|reflexivity]|]. split; [exact IH2|].
    intros E. change (moment (S (S k))) with (INR (S k) / 2 * moment k). rewrite IH1 by exact E. ring. }
  intros c. destruct (Nat.even k) eqn:E; [ring|]. rewrite (proj1 (G k) E). ring.
Qed.
Lemma pow_neg x k : (- x) ^ k = (if Nat.even k then 1 else -1) * x ^ k.
Proof.
  induction k as [|k IH]; [cbn; ring|]. rewrite <- !tech_pow_Rmult, IH, Nat.even_succ, <- Nat.negb_even. destruct (Nat.even k); cbn; ring.
Qed.

Section Rule.
Context (n : nat) (lam : list R) (Q : list (list R)) (Hed : eigendecomposition n (findHermiteJacobi n) lam Q) (Hn : (0 < n)%nat)
  (es : rmat -> rvec * rmat) (Hes : es (findHermiteJacobi n) = (lam, Q)).
Let r := rule_initialize es n.
Let w i := entry Q 0 i * entry Q 0 i.

Lemma poly_symmetric p : (length p <= 2 * n)%nat ->
  sumR n (fun i => w i * poly p (- nth i lam 0)) = sumR n (fun i => w i * poly p (nth i lam 0)).
Proof.
  intros L.
  assert (G : forall c, (c = 1 \/ c = -1) -> sumR n (fun i => w i * poly p (c * nth i lam 0)) = sumR (length p) (fun k => nth k p 0 * moment k)).
  { intros c C. transitivity (sumR (length p) (fun k => sumR n (fun i => w i * (nth k p 0 * (c * nth i lam 0) ^ k)))).
    - rewrite sumR_swap. apply sumR_ext. intros i _. rewrite poly_sum, <- sumR_scal. reflexivity.
    - apply sumR_ext. intros k K. transitivity (nth k p 0 * (c ^ k * sumR n (fun i => w i * nth i lam 0 ^ k))).
      + rewrite <- !sumR_scal. apply sumR_ext. intros i _. rewrite Rpow_mult_distr. ring.
      + unfold w. rewrite (spectral_moment n lam Q Hed Hn) by lia. f_equal. rewrite Rmult_comm.
        destruct C as [->| ->]; [rewrite pow1; ring|]. pose proof (moment_odd k (-1)) as M. rewrite M. replace (-1) with (- (1)) by lra. rewrite pow_neg, pow1.
        pose proof (moment_odd k 1) as M1. rewrite pow1 in M1. destruct (Nat.even k); lra. }
  pose proof (G (-1) (or_intror eq_refl)) as G2. pose proof (G 1 (or_introl eq_refl)) as G1.
  transitivity (sumR n (fun i => w i * poly p (-1 * nth i lam 0))).
  - apply sumR_ext. intros i _. now replace (-1 * nth i lam 0) with (- nth i lam 0) by ring.
  - rewrite G2, <- G1. apply sumR_ext. intros i _. now rewrite Rmult_1_l.
Qed.

Lemma spectral_symmetric h : sumR n (fun i => w i * h (- nth i lam 0)) = sumR n (fun i => w i * h (nth i lam 0)).
Proof.
  assert (LL : length lam = n) by exact (ed_values _ _ _ _ Hed).
  destruct (interpolation h (nodup Req_EM_T (lam ++ map Ropp lam)) (NoDup_nodup _ _)) as [p [L E]].
  assert (L2 : (length p <= 2 * n)%nat).
  { eapply Nat.le_trans; [exact L|]. eapply Nat.le_trans; [apply NoDup_incl_length; [apply NoDup_nodup|]|].
    - intros x X. apply nodup_In in X. exact X.
    - rewrite app_length, map_length, LL. lia. }
  transitivity (sumR n (fun i => w i * poly p (- nth i lam 0))); [|rewrite poly_symmetric by exact L2]; apply sumR_ext; intros i I; f_equal;
    [symmetry|]; apply E; apply nodup_In, in_app_iff; [right|left].
  - apply in_map. apply nth_In. lia.
  - apply nth_In. lia.
Qed.

(** Σ w_i h(z_i) = Σ w_i h(- z_i). *)
Lemma rule_symmetric h :
  fold_right Rplus 0 (map (fun p => snd p * h (- fst p)) (combine (qr_nodes r) (qr_weights r))) =
  fold_right Rplus 0 (map (fun p => snd p * h (fst p)) (combine (qr_nodes r) (qr_weights r))).
Proof.
  assert (LN : length (qr_nodes r) = n) by (unfold r; rewrite (r_nodes n lam Q es Hes); exact (ed_values _ _ _ _ Hed)).
  assert (LW : length (qr_weights r) = n) by exact (r_weights_length n lam Q Hed Hn es Hes).
  assert (G : forall g : R -> R, fold_right Rplus 0 (map (fun p => snd p * g (fst p)) (combine (qr_nodes r) (qr_weights r))) =
    sqrtPi * sumR n (fun i => w i * g (nth i lam 0))).
  { intros g. rewrite <- sumR_scal. transitivity (sumR n (fun i => nth i (qr_weights r) 0 * g (nth i (qr_nodes r) 0))).
    - revert LN LW. generalize (qr_nodes r) as a, (qr_weights r) as b. clear. intros a b <-. revert b. induction a as [|x a IH]; intros [|y b] H; try discriminate H; [reflexivity|].
      cbn [combine map fold_right length fst snd]. rewrite sumR_S. cbn [nth]. f_equal. apply IH. now injection H.
    - apply sumR_ext. intros i I. unfold r. rewrite (r_weights_nth n lam Q Hed Hn es Hes) by exact I. rewrite (r_nodes n lam Q es Hes). unfold w. ring. }
  transitivity (sqrtPi * sumR n (fun i => w i * h (- nth i lam 0))); [exact (G (fun z => h (- z)))|]. rewrite (G h). f_equal. apply spectral_symmetric.
Qed.
End Rule.
