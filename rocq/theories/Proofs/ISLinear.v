(** Cholesky factors, and the density of the draws. *)
From Coq Require Import List Reals ZArith Arith Lia Lra.
From Coquelicot Require Import Coquelicot.
From Verif Require Import Spec.GLMMSpec Spec.MatrixSpec Spec.LaplaceSpec Spec.ISSpec Proofs.GLMMLemmas Proofs.SumLemmas Proofs.LaplaceMain Proofs.LineIntegral.
Import ListNotations.
Local Open Scope R_scope.

Definition prodR (n : nat) (f : nat -> R) : R := fold_right Rmult 1 (map f (seq 0 n)).
Lemma prodR_S n f : prodR (S n) f = f 0%nat * prodR n (fun i => f (S i)).
Proof. unfold prodR. cbn [seq map fold_right]. f_equal. now rewrite <- seq_shift, map_map. Qed.
Lemma prodR_ext n f g : (forall i, (i < n)%nat -> f i = g i) -> prodR n f = prodR n g.
Proof. intros H. unfold prodR. f_equal. apply map_ext_in. intros i Hi. apply H. apply in_seq in Hi. lia. Qed.
Lemma prodR_pos n : forall f, (forall i, (i < n)%nat -> 0 < f i) -> 0 < prodR n f.
Proof.
  induction n as [|n IH]; intros f H; [unfold prodR; cbn; lra|]. rewrite prodR_S. apply Rmult_lt_0_compat; [apply H; lia|]. apply IH. intros i Hi. apply H. lia.
Qed.
Lemma prodR_mult n : forall f g, prodR n (fun i => f i * g i) = prodR n f * prodR n g.
Proof. induction n as [|n IH]; intros f g; [unfold prodR; cbn; ring|]. rewrite !prodR_S, IH. ring. Qed.

(** z -> c + A z. *)
Definition affine (d : nat) (A : nat -> nat -> R) (c : nat -> R) (z : list R) : list R :=
  map (fun a => c a + sumR d (fun b => A a b * nth b z 0)) (seq 0 d).

Lemma affine_triangular d : forall A c, (forall a b, (a < b)%nat -> (b < d)%nat -> A a b = 0) -> (forall a, (a < d)%nat -> 0 < A a a) ->
  triangular d (prodR d (fun a => A a a)) (affine d A c).
Proof.
  induction d as [|d IH]; intros A c L D; [constructor; reflexivity|]. rewrite prodR_S.
  apply tri_S with (c := c 0%nat) (T' := fun x => affine d (fun a b => A (S a) (S b)) (fun a => c (S a) + A (S a) 0%nat * x)).
  - apply D. lia.
  - intros x z Z. unfold affine. cbn [seq map]. f_equal.
    + rewrite sumR_S. cbn [nth]. rewrite (sumR_ext d _ (fun _ => 0)) by (intros i Hi; rewrite L by lia; ring). rewrite sumR_zero. ring.
    + rewrite <- seq_shift, map_map. apply map_ext. intros a. rewrite sumR_S. cbn [nth]. ring.
  - intros x. apply (IH (fun a b => A (S a) (S b))); [intros a b H1 H2; apply L; lia|intros a H; apply D; lia].
Qed.

Lemma det_cholesky n : forall r, (forall i j, (i < n)%nat -> (j < i)%nat -> r i j = 0) -> (forall i, (i < n)%nat -> 0 < r i i) ->
  det n (fun i j => sumR n (fun k => r k i * r k j)) = prodR n (fun i => r i i * r i i).
Proof.
  induction n as [|n IH]; intros r U D; [reflexivity|]. rewrite prodR_S. cbn [det].
  assert (P0 : forall j, sumR (S n) (fun k => r k 0%nat * r k j) = r 0%nat 0%nat * r 0%nat j).
  { intros j. rewrite sumR_S, (sumR_ext n _ (fun _ => 0)) by (intros k Hk; rewrite (U (S k) 0%nat) by lia; ring). rewrite sumR_zero. ring. }
  assert (P0' : forall j, sumR (S n) (fun k => r k j * r k 0%nat) = r 0%nat j * r 0%nat 0%nat).
  { intros j. rewrite sumR_S, (sumR_ext n _ (fun _ => 0)) by (intros k Hk; rewrite (U (S k) 0%nat) by lia; ring). rewrite sumR_zero. ring. }
  rewrite P0. f_equal. rewrite <- (IH (fun i j => r (S i) (S j))).
  - apply det_ext. intros i j Hi Hj. rewrite P0, P0', (sumR_S n (fun k => r k (S i) * r k (S j))). specialize (D 0%nat ltac:(lia)). field. lra.
  - intros i j Hi Hj. apply U; lia.
  - intros i Hi. apply D. lia.
Qed.

Section Chol.
Context (d : nat) (P Rm C : list (list R)) (HP : cholesky d P Rm) (HC : are_inverse d Rm C).

Lemma det_chol : det d (entry P) = prodR d (fun i => entry Rm i i) * prodR d (fun i => entry Rm i i).
Proof.
  destruct HP as [_ [_ [U [D E]]]]. rewrite <- prodR_mult. rewrite <- (det_cholesky d (entry Rm) U D). apply det_ext. intros i j Hi Hj. symmetry. now apply E.
Qed.

Lemma C_upper : forall i j, (i < d)%nat -> (j < i)%nat -> entry C i j = 0.
Proof.
  destruct HP as [_ [_ [U [D E]]]]. destruct HC as [_ [_ I]]. intros i j Hi. induction j as [j IH] using lt_wf_ind. intros Hj.
  destruct (I i j Hi ltac:(lia)) as [_ Q]. unfold row_col in Q. rewrite (sumR_single d j) in Q.
  - unfold unit_entry in Q. destruct (Nat.eqb_spec i j); [lia|]. specialize (D j ltac:(lia)). apply Rmult_integral in Q. destruct Q; [assumption|lra].
  - lia.
  - intros k Hk N. destruct (Nat.ltb_spec k j) as [L|L]; [rewrite IH by lia; ring|rewrite (U k j) by lia; ring].
Qed.

Lemma C_diag : forall i, (i < d)%nat -> entry C i i * entry Rm i i = 1.
Proof.
  destruct HP as [_ [_ [U [D E]]]]. destruct HC as [_ [_ I]]. intros i Hi. destruct (I i i Hi Hi) as [_ Q]. unfold row_col in Q. rewrite (sumR_single d i) in Q.
  - unfold unit_entry in Q. rewrite Nat.eqb_refl in Q. exact Q.
  - exact Hi.
  - intros k Hk N. destruct (Nat.ltb_spec k i) as [L|L]; [rewrite C_upper by lia; ring|rewrite (U k i) by lia; ring].
Qed.

Lemma C_pos : forall i, (i < d)%nat -> 0 < entry C i i.
Proof.
  intros i Hi. pose proof (C_diag i Hi) as Q. destruct HP as [_ [_ [U [D E]]]]. specialize (D i Hi).
  assert (Z : entry C i i = / entry Rm i i) by (apply (Rmult_eq_reg_r (entry Rm i i)); [rewrite Q; field; lra|lra]). rewrite Z. now apply Rinv_0_lt_compat.
Qed.

Lemma prod_inverse : prodR d (fun i => entry C i i) * prodR d (fun i => entry Rm i i) = 1.
Proof. rewrite <- prodR_mult. rewrite (prodR_ext d _ (fun _ => 1)) by exact C_diag. unfold prodR. clear. induction (seq 0 d); cbn; [ring|]. rewrite IHl. ring. Qed.

Lemma image_triangular mean : triangular d (prodR d (fun i => entry C i i)) (image d C mean).
Proof.
  apply (affine_triangular d (fun a b => entry C b a) (fun a => nth a mean 0)); [|exact C_pos]. intros a b H1 H2. now apply C_upper.
Qed.

(** The way back: z = R^T (u - mean). *)
Definition back (mean u : list R) : list R := map (fun a => sumR d (fun b => entry Rm b a * (nth b u 0 - nth b mean 0))) (seq 0 d).
Lemma back_image mean z : length z = d -> back mean (image d C mean z) = z.
Proof.
  intros Z. destruct HC as [_ [_ I]]. apply (nth_ext _ _ 0 0).
  - unfold back. now rewrite map_length, seq_length.
  - unfold back. rewrite map_length, seq_length. intros a Ha. rewrite nth_map_seq by exact Ha.
    rewrite (sumR_ext d _ (fun b => sumR d (fun e => entry C e b * entry Rm b a * nth e z 0))).
    + rewrite sumR_swap. rewrite (sumR_ext d _ (fun e => nth e z 0 * unit_entry e a)).
      * now rewrite sumR_delta_r.
      * intros e He. rewrite (sumR_scal_r d (nth e z 0) (fun b => entry C e b * entry Rm b a)). destruct (I e a He Ha) as [_ Q]. unfold row_col in Q. rewrite Q. ring.
    + intros b Hb. unfold image. rewrite nth_map_seq by exact Hb.
      transitivity (at_ Rm b a * sumR d (fun e => at_ C e b * nth e z 0)); [ring|]. rewrite <- sumR_scal. apply sumR_ext. intros; ring.
Qed.
Lemma image_length mean z : length (image d C mean z) = d.
Proof. unfold image. now rewrite map_length, seq_length. Qed.

(** The density of the draws. *)
Definition g (mean u : list R) : R := std_normal (back mean u) * sqrt (det d (entry P)).

Lemma sqrt_det : sqrt (det d (entry P)) = prodR d (fun i => entry Rm i i).
Proof. rewrite det_chol. apply sqrt_square. destruct HP as [_ [_ [_ [D _]]]]. apply Rlt_le, prodR_pos. exact D. Qed.
Lemma det_positive : 0 < det d (entry P).
Proof. rewrite det_chol. destruct HP as [_ [_ [_ [D _]]]]. apply Rmult_lt_0_compat; apply prodR_pos; exact D. Qed.

Lemma g_density mean h : space d (fun z => h (image d C mean z) * std_normal z) = space d (fun u => h u * g mean u).
Proof.
  rewrite <- (space_triangular d _ _ (image_triangular mean) (fun u => h u * g mean u)). apply space_ext. intros z Z. unfold g. rewrite back_image by exact Z. rewrite sqrt_det.
  pose proof prod_inverse as Q. transitivity (h (image d C mean z) * std_normal z * (prodR d (fun i => entry C i i) * prodR d (fun i => entry Rm i i))); [rewrite Q; ring|ring].
Qed.

Lemma cov_inverse i j : (i < d)%nat -> (j < d)%nat ->
  sumR d (fun k => image_cov d C i k * sumR d (fun l => entry Rm k l * entry Rm j l)) = unit_entry i j.
Proof.
  intros Hi Hj. destruct HC as [_ [_ I]]. unfold image_cov.
  transitivity (sumR d (fun k => sumR d (fun e => sumR d (fun l => entry C e i * (entry C e k * entry Rm k l) * entry Rm j l)))).
  - apply sumR_ext. intros k Hk. rewrite <- sumR_scal_r. apply sumR_ext. intros e He. rewrite <- sumR_scal. apply sumR_ext. intros l Hl. ring.
  - rewrite sumR_swap. transitivity (sumR d (fun e => entry C e i * entry Rm j e)).
    + apply sumR_ext. intros e He. rewrite sumR_swap.
      rewrite (sumR_ext d _ (fun l => unit_entry e l * (entry C e i * entry Rm j l))).
      * now rewrite sumR_delta.
      * intros l Hl. rewrite (sumR_ext d _ (fun k => entry C e i * entry Rm j l * (entry C e k * entry Rm k l))) by (intros; ring). rewrite sumR_scal.
        destruct (I e l He Hl) as [_ Q]. unfold row_col in Q. rewrite Q. ring.
    + destruct (I j i Hj Hi) as [Q _]. unfold row_col in Q. rewrite (sumR_ext d _ (fun k => entry Rm j k * entry C k i)) by (intros; ring). rewrite Q.
      unfold unit_entry. now rewrite Nat.eqb_sym.
Qed.
End Chol.

Lemma phi_pos x : 0 < phi x.
Proof. unfold phi. apply Rdiv_lt_0_compat; [apply exp_pos|]. apply sqrt_lt_R0. pose proof PI_RGT_0. lra. Qed.
Lemma std_normal_pos z : 0 < std_normal z.
Proof. unfold std_normal. induction z as [|x z IH]; cbn; [lra|]. apply Rmult_lt_0_compat; [apply phi_pos|exact IH]. Qed.
