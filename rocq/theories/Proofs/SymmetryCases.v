(** A case for C86: one of two correlated effects is integrated out of a function that is not symmetric. *)
From Coq Require Import List Arith ZArith Bool Lia Reals Lra.
From Verif Require Import Model.Base Model.Mixed Model.Vectors Model.MultiNormal Model.Quadrature Model.IntegratedFunction Model.SparseStore Model.Sequential
  Spec.GLMMSpec Spec.MatrixSpec Spec.LaplaceSpec Spec.StoreSpec Spec.FramesSpec Spec.SymmetrySpec Spec.SymmetryStoreSpec
  Proofs.VectorLemmas Proofs.NormalCases Proofs.StoreCases Proofs.StoreMain Proofs.BasisMain Proofs.SequentialRun.
From Verif Require Spec.FactorSpec.
Import ListNotations.
Local Open Scope R_scope.

Definition shifted : mnormal := mkNormal [2; 1] [[2; 1]; [1; 2]] [[2 / 3; - (1 / 3)]; [- (1 / 3); 2 / 3]] 1.
Definition shifted' : mnormal := flip_normal [1; -1] shifted.
Definition bent (y : rvec) : outcome R := Ok (nth 0 y 0 * nth 1 y 0 ^ 2 + nth 1 y 0 ^ 3).
Definition bent_d (y : rvec) : outcome rvec := Ok [nth 1 y 0 ^ 2; 2 * nth 0 y 0 * nth 1 y 0 + 3 * nth 1 y 0 ^ 2].
Definition bent_d2 (y : rvec) : outcome rmat := Ok [[0; 2 * nth 1 y 0]; [2 * nth 1 y 0; 2 * nth 0 y 0 + 6 * nth 1 y 0]].
Definition bent' (y : rvec) : outcome R := Ok (nth 0 y 0 * nth 1 y 0 ^ 2 - nth 1 y 0 ^ 3).
Definition bent_d' (y : rvec) : outcome rvec := Ok [nth 1 y 0 ^ 2; 2 * nth 0 y 0 * nth 1 y 0 - 3 * nth 1 y 0 ^ 2].
Definition bent_d2' (y : rvec) : outcome rmat := Ok [[0; 2 * nth 1 y 0]; [2 * nth 1 y 0; 2 * nth 0 y 0 - 6 * nth 1 y 0]].
Definition root_1 (P : rmat) : rmat := [[sqrt (entry P 0 0)]].
Definition inverse_root_1 (P : rmat) : rmat := [[/ sqrt (entry P 0 0)]].

Lemma shifted_nondegenerate : nondegenerate 2 (no_mean shifted) (no_precision shifted) (no_variance shifted).
Proof.
  split; [reflexivity|]. split; [exact tilted_inverse|]. split; [exact tilted_symmetric|].
  intros [|a [|c [|]]] L (i & Hi & N); try discriminate. unfold quad. sums. assert (0 < a * a + c * c).
  { destruct i as [|[|i]]; [| |lia]; cbn in N; pose proof (Rle_0_sqr a); pose proof (Rle_0_sqr c); pose proof (Rsqr_pos_lt _ N); unfold Rsqr in *; lra. }
  pose proof (Rle_0_sqr (a + c)). unfold Rsqr in *. nra.
Qed.
Lemma list_2 {X} (a c a' c' : X) : a = a' -> c = c' -> [a; c] = [a'; c'].
Proof. now intros -> ->. Qed.
Lemma bent_flipped y : length y = 2%nat -> exists v w A, length w = 2%nat /\ square 2 A /\
  bent (flip [1; -1] y) = Ok v /\ bent' y = Ok v /\ bent_d (flip [1; -1] y) = Ok w /\ bent_d' y = Ok (flip [1; -1] w) /\
  bent_d2 (flip [1; -1] y) = Ok A /\ bent_d2' y = Ok (flip_matrix [1; -1] A).
Proof.
  destruct y as [|a [|c [|]]]; try discriminate. intros _. do 3 eexists. split; [|split; [|split; [reflexivity|split; [|split; [reflexivity|split; [|split; [reflexivity|]]]]]]].
  - reflexivity.
  - split; [reflexivity|]. intros [|[|i]] Hi; try lia; reflexivity.
  - unfold bent', flip. cbn [combine map fst snd nth]. f_equal. ring.
  - unfold bent_d', flip. cbn [combine map fst snd nth]. f_equal. apply list_2; ring.
  - unfold bent_d2', flip_matrix, flip. cbn [combine map fst snd nth]. f_equal. apply list_2; apply list_2; ring.
Qed.
Lemma roots_1 a : 0 < a -> positive_roots 1 [[a]] (root_1 [[a]]) (inverse_root_1 [[a]]).
Proof.
  intros Ha. assert (0 < sqrt a) by now apply sqrt_lt_R0. unfold root_1, inverse_root_1, entry. cbn [nth]. split; [split; [|split]|].
  - split; [split; [reflexivity|intros [|i] Hi; try reflexivity; lia]|]. split; [split; [reflexivity|intros [|i] Hi; try reflexivity; lia]|].
    intros [|i] [|j] Hi Hj; try lia. sums. split; field; lra.
  - intros [|i] [|j] Hi Hj; try lia. reflexivity.
  - intros [|i] [|j] Hi Hj; try lia. sums. rewrite Rplus_0_r. apply sqrt_sqrt. lra.
  - intros x ([|i] & Hi & N); [|lia]. unfold FactorSpec.form, entry, sumR. cbn. pose proof (Rsqr_pos_lt _ N). unfold Rsqr in *. nra.
Qed.
Lemma divides A v : square 1 A -> length v = 1%nat -> finds_solution divide_1 1 A v.
Proof.
  intros QA Lv (x & Lx & H). split; [reflexivity|]. intros [|i] Hi; [|lia]. specialize (H 0%nat ltac:(lia)). revert H. unfold divide_1, sumR. cbn. rewrite !Rplus_0_r. intros H.
  destruct (Req_dec (entry A 0 0) 0) as [Z|NZ]; [|field; exact NZ]. rewrite Z in *. lra.
Qed.
Lemma either A : square 1 A -> (exists C, are_inverse 1 A C) \/ forall i j, (i < 1)%nat -> (j < 1)%nat -> entry A i j = 0.
Proof.
  intros QA. destruct (Req_dec (entry A 0 0) 0) as [Z|NZ].
  - right. intros [|i] [|j] Hi Hj; try lia. exact Z.
  - left. exists [[/ entry A 0 0]]. split; [exact QA|]. split; [split; [reflexivity|intros [|i] Hi; try reflexivity; lia]|]. intros [|i] [|j] Hi Hj; try lia.
    unfold row_col, unit_entry, sumR. cbn [fold_right map seq Nat.eqb]. change (entry [[/ entry A 0 0]] 0 0) with (/ entry A 0 0). split; field; exact NZ.
Qed.
Lemma shifted_margin det : no_mean (integrate_item some_inverse det shifted 0) = [1] /\ no_precision (integrate_item some_inverse det shifted 0) = [[3 / 2]].
Proof.
  split; [reflexivity|]. unfold integrate_item, setVariance. cbn. apply (some_inverse_inverts 1%nat).
  split; [split; [reflexivity|intros [|i] Hi; try reflexivity; lia]|]. split; [split; [reflexivity|intros [|i] Hi; try reflexivity; lia]|].
  intros [|i] [|j] Hi Hj; try lia. sums. split; lra.
Qed.
Lemma flip_one M : square 1 M -> flip_matrix [-1] M = M.
Proof.
  intros [LM RM]. destruct M as [|r [|]]; try discriminate. specialize (RM 0%nat ltac:(lia)). cbn in RM. destruct r as [|a [|]]; try discriminate.
  unfold flip_matrix, flip. cbn. repeat f_equal. ring.
Qed.
