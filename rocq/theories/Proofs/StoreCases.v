(** C31 over the basis of the code, and small cases. *)
From Coq Require Import List Reals Lia Lra Arith.
From Coquelicot Require Import Coquelicot.
From Verif Require Import Model.Base Model.SparseGrid Model.Vectors Model.MultiNormal Model.Quadrature Model.Margin Model.BasisLevel Model.SparseStore
  Spec.GLMMSpec Spec.MatrixSpec Spec.Calculus Spec.HermiteSpec Spec.LaplaceSpec Spec.StoreSpec Spec.NodalSpec Spec.GridSpec Spec.SplineSpec
  Proofs.VectorLemmas Proofs.SumLemmas Proofs.CalculusLemmas Proofs.QuantileMain Proofs.LevelMain Proofs.BasisMain Proofs.StoreMain Proofs.LaplaceMain.
Import ListNotations.
Local Open Scope R_scope.

Section Real.
Variables (q : R -> R) (inverse : rmat -> rmat) (solveM : rmat -> rmat -> rmat) (L : nat).
Hypothesis Q : is_normal_quantile q.
Hypothesis HL : (1 <= L <= 25)%nat.
Hypothesis Inv : forall d A, inverts inverse d A.
Hypothesis Sol : solves_systems solveM.
Lemma real_basis : exists b x phi phi1 phi2, basis_new q inverse solveM L = Ok b /\
  total_basis b L (fun y => y - x L 0%nat < 2 ^ 32 * bandwidth q L) x phi /\ nodal L x phi /\
  smooth_basis b L (fun y => y - x L 0%nat < 2 ^ 32 * bandwidth q L) phi phi1 phi2 /\
  x 0%nat 0%nat = 0 /\ forall y, phi 0%nat 0%nat y = 1.
Proof.
  exact (C33_all q (normal_quantile_like _ Q) L ltac:(lia) (normal_quantile_fit _ L Q HL) inverse solveM (Inv 3%nat) (Inv 4%nat) Sol).
Qed.
Lemma laplace_store inverse' determinant isProper solve oS oI es lam V : 
  es (findHermiteJacobi 1) = (lam, V) -> eigendecomposition 1 (findHermiteJacobi 1) lam V ->
  (forall d A, (0 < d)%nat -> square d A -> square d (oS A) /\ square d (oI A)) ->
  exists b, basis_new q inverse solveM L = Ok b /\ forall fb d,
  (forall k A, (k < d)%nat -> inverts inverse' k A) ->
  nondegenerate d (no_mean (fb_normal fb)) (no_precision (fb_normal fb)) (no_variance (fb_normal fb)) ->
  (forall k, (k < d)%nat ->
     isProper (Nat.iter k (fun N => normal_without inverse' determinant N 0) (fb_normal fb)) = true) ->
  belief_logNormalizingConstant inverse' determinant isProper (sparse_storage solve oS oI b) (rule_initialize es 1) fb
  = laplace d (fb_value fb) (no_mean (fb_normal fb)) (no_precision (fb_normal fb)) + INR d * ln (sqrtPi / sqrt PI).
Proof.
  intros Ees Hed Sq. destruct real_basis as (b & x & phi & p1 & p2 & E & TB & NB & _ & X0 & _). exists b. split; [exact E|].
  intros fb d Hi Hn Hp. apply (C30_main inverse' determinant isProper (sparse_storage solve oS oI b) es lam V); auto.
  intros d' N f g H (Lm & IPV & _). unfold sparse_storage. cbn [fst snd].
  destruct (C31_mean_main solve oS oI b L _ x phi TB NB N d' Lm f g H X0) as (s & Es & Ev).
  - intros Hd. apply Sq; auto. apply IPV.
  - rewrite Es. cbn [bind]. now rewrite Ev.
Qed.
End Real.

(** The exponential of the only component. *)
Lemma exp_smooth : smooth 1 (fun x => exp (nth 0 x 0)) (fun x => [exp (nth 0 x 0)]) (fun x => [[exp (nth 0 x 0)]]).
Proof.
  assert (P : forall x, length x = 1%nat -> is_gradient 1 (fun y => nth 0 y 0) x [1]).
  { intros x Lx. split; [reflexivity|]. intros e He. exists 1. split; [lra|]. intros h Lh _.
    destruct x as [|a [|]]; try discriminate. destruct h as [|c [|]]; try discriminate.
    cbn. unfold scalar. cbn. replace (a + c - a - (1 * c + 0)) with 0 by ring. rewrite Rabs_R0.
    apply Rmult_le_pos; [lra|]. unfold norm1. cbn. pose proof (Rabs_pos c). lra. }
  assert (G : forall x, length x = 1%nat -> is_gradient 1 (fun y => exp (nth 0 y 0)) x [exp (nth 0 x 0)]).
  { intros x Lx. eapply grad_ext; [exact Lx|reflexivity| |exact (grad_comp 1 _ x [1] exp (exp (nth 0 x 0)) (P x Lx) (is_derive_exp _))].
    unfold vscale. cbn. f_equal. ring. }
  constructor.
  - exact G.
  - reflexivity.
  - intros x [|i] Lx Hi; [|lia]. exact (G x Lx).
  - intros x [|i] [|j] Lx Hi Hj; try lia. reflexivity.
Qed.
Definition unit_normal : mnormal := mkNormal [0] [[1]] [[1]] 0.
Definition divide_1 (A : rmat) (v : rvec) : rvec := [nth 0 v 0 / entry A 0 0].

Definition diag_normal : mnormal := mkNormal [1; 0] [[4; 0]; [0; 9]] [[1 / 4; 0]; [0; 1 / 9]] 0.
Lemma diag_roots : matrix_roots 2 (no_precision diag_normal) [[2; 0]; [0; 3]] [[1 / 2; 0]; [0; 1 / 3]].
Proof.
  split; [|split].
  - split; [split; [reflexivity|intros [|[|i]] Hi; try reflexivity; lia]|].
    split; [split; [reflexivity|intros [|[|i]] Hi; try reflexivity; lia]|].
    intros [|[|i]] [|[|j]] Hi Hj; try lia; unfold row_col, sumR, entry, unit_entry; cbn; split; field.
  - intros [|[|i]] [|[|j]] Hi Hj; try lia; reflexivity.
  - intros [|[|i]] [|[|j]] Hi Hj; try lia; unfold row_col, sumR, entry; cbn; ring.
Qed.
Definition saddle_solution : rvec := [- 4 / 7; 2 / 7].
Lemma saddle_solved : solves_system 2 (mscale (- (1 / 2)) (msub [[0; 1]; [1; 0]] (normal_evaluateSecondDerivative diag_normal (no_mean diag_normal))))
  [1; -1] saddle_solution.
Proof.
  split; [reflexivity|]. intros [|[|i]] Hi; try lia; unfold saddle_solution, sumR, entry; cbn; field.
Qed.
