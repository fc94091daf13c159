(** Importance sampling: the weights and the estimate. *)
From Coq Require Import List Reals ZArith Bool Arith Sorted Lia Lra.
From Coquelicot Require Import Coquelicot.
From Verif Require Import Model.Base Model.Family Model.GLMM Model.SplitFrame Model.Frames Model.Vectors Model.IS Spec.Numbers Spec.GLMMSpec Spec.SplitSpec Spec.FramesSpec Spec.ISSpec
  Proofs.FamilyLemmas Proofs.GLMMLemmas Proofs.SumLemmas Proofs.SplitMain Proofs.AttachMain Proofs.LineIntegral Proofs.Gaussian Proofs.ISLinear Proofs.ISMain Proofs.FramesCases.
From Verif Require Spec.MatrixSpec Spec.LaplaceSpec.
Import ListNotations.
Local Open Scope R_scope.

Theorem C44_integrand_main fam n m r y w theta beta : fits n m r y w theta beta ->
  forall nIS u, (0 < nIS)%nat -> sized (nrandom m) nIS u ->
  find_log_integrand fam (theta ++ beta) m r nIS u =
  Ok (map (fun j => log_joint n (linkinv fam) (dev_resids fam) m y w beta theta (draw u j)) (seq 0 nIS)).
Proof.
  intros F nIS u HN SU. destruct F as [P E N0 NT LT LB HY LY HW LW]. subst w.
  exact (integrand_main fam n m r y theta beta u nIS P E N0 NT LT LB HY LY LW HN SU).
Qed.

Lemma log_mean_exp (w : list R) b : w <> [] -> ln (mean_of (map (fun x => exp (x - b)) w)) + b = ln (mean_of (map exp w)).
Proof.
  intros H. unfold mean_of. rewrite !map_length.
  assert (S : forall l, fold_right Rplus 0 (map (fun x => exp (x - b)) l) = exp (- b) * fold_right Rplus 0 (map exp l)).
  { intros l. induction l as [|x l IH]; cbn; [ring|]. rewrite IH. unfold Rminus. rewrite exp_plus. ring. }
  assert (PS : forall l : list R, l <> [] -> 0 < fold_right Rplus 0 (map exp l)).
  { intros l. induction l as [|x l IH]; intros NE; [easy|]. cbn. pose proof (exp_pos x). destruct l as [|x' l]; [cbn; lra|]. specialize (IH ltac:(easy)). lra. }
  assert (LP : 0 < INR (length w)) by (apply lt_0_INR; destruct w; [easy|cbn; lia]). specialize (PS w H).
  rewrite S. replace (exp (- b) * fold_right Rplus 0 (map exp w) / INR (length w)) with (exp (- b) * (fold_right Rplus 0 (map exp w) / INR (length w))) by (field; lra).
  rewrite ln_mult by (try apply exp_pos; now apply Rdiv_lt_0_compat). rewrite ln_exp. ring.
Qed.

Lemma jensen (w : list R) : w <> [] -> mean_of w <= ln (mean_of (map exp w)).
Proof.
  intros H. rewrite <- (log_mean_exp w (mean_of w) H). enough (0 <= ln (mean_of (map (fun x => exp (x - mean_of w)) w))) by lra.
  rewrite <- ln_1. apply Rcomplements.ln_le; [lra|]. set (b := mean_of w).
  assert (LP : 0 < INR (length w)) by (apply lt_0_INR; destruct w; [easy|cbn; lia]).
  assert (S : forall l, INR (length l) + (fold_right Rplus 0 l - INR (length l) * b) <= fold_right Rplus 0 (map (fun x => exp (x - b)) l)).
  { intros l. induction l as [|x l IH]; [cbn; lra|]. cbn [length map fold_right]. rewrite S_INR. pose proof (exp_ineq1_le (x - b)). lra. }
  specialize (S w). unfold mean_of at 1. rewrite map_length. apply (Rmult_le_reg_r (INR (length w))); [exact LP|]. unfold Rdiv. rewrite Rmult_assoc, Rinv_l by lra.
  assert (B : INR (length w) * b = fold_right Rplus 0 w) by (unfold b, mean_of; field; lra). lra.
Qed.

Lemma mean_average (f : nat -> R) k : mean_of (map f (seq 0 k)) = average k f.
Proof. unfold mean_of, average. rewrite map_length, seq_length. reflexivity. Qed.

Section Est.
Context (chol solve : list (list R) -> list (list R)) (determinant : list (list R) -> R) (d : nat) (mean : list R) (P : list (list R))
  (RO : routines d chol solve determinant P) (LM : length mean = d).
Let C := solve (chol P).

Lemma square_P : length P = d. Proof. destruct (ro_chol _ _ _ _ _ RO) as [[L _] _]. exact L. Qed.
Lemma square_C : length C = d /\ forall i, (i < d)%nat -> length (nth i C []) = d.
Proof. destruct (ro_solve _ _ _ _ _ RO) as [_ [S _]]. exact S. Qed.

Lemma transform_draw z k : sized d k z ->
  sized d k (transform_normal chol solve z k mean P) /\
  forall j, (j < k)%nat -> draw (transform_normal chol solve z k mean P) j = image d C mean (draw z j).
Proof.
  intros [LZ ZR]. unfold transform_normal. fold C. rewrite square_P. set (cp := crossprod d k C z).
  assert (CL : length cp = d) by (unfold cp, crossprod; rewrite mmul_length; apply transpose_length).
  assert (CR : forall i, (i < d)%nat -> length (nth i cp []) = k) by (intros i Hi; unfold cp, crossprod; apply mmul_row; now rewrite transpose_length).
  assert (UL : length (map2 (fun m row => map (fun x => m + x) row) mean cp) = d) by (unfold map2; rewrite map_length, combine_length; lia).
  assert (UN : forall i, (i < d)%nat -> nth i (map2 (fun m row => map (fun x => m + x) row) mean cp) [] = map (fun x => nth i mean 0 + x) (nth i cp [])).
  { intros i Hi. unfold map2. rewrite (nth_map' _ _ i [] (0, [])) by (rewrite combine_length; lia). rewrite combine_nth by lia. reflexivity. }
  split.
  - split; [exact UL|]. intros row Hr. destruct (In_nth _ _ [] Hr) as [i [Hi <-]]. rewrite UL in Hi. rewrite UN by exact Hi. rewrite map_length. now apply CR.
  - intros j Hj. apply (nth_ext _ _ 0 0); [rewrite draw_length, UL; unfold image; now rewrite map_length, seq_length|].
    rewrite draw_length, UL. intros i Hi. rewrite draw_nth. unfold at2. rewrite UN by exact Hi. rewrite (nth_map' _ _ j 0 0) by (rewrite CR; assumption).
    unfold image. rewrite nth_map_seq by exact Hi. f_equal.
    change (nth j (nth i cp []) 0) with (at2 cp i j). unfold cp, crossprod. rewrite (mmul_at _ _ _ i j d).
    + apply sumR_ext. intros b Hb. rewrite transpose_at by (try exact Hi; rewrite (proj1 square_C); exact Hb). rewrite draw_nth. reflexivity.
    + now rewrite transpose_length.
    + exact Hj.
    + rewrite transpose_row by exact Hi. exact (proj1 square_C).
    + exact LZ.
Qed.

Let T := image d C mean.
Let G := g d P (chol P) mean.

Lemma T_length z : length (T z) = d. Proof. apply image_length. Qed.
Lemma G_pos u : 0 < G u.
Proof. unfold G, g. apply Rmult_lt_0_compat; [apply std_normal_pos|]. apply sqrt_lt_R0. apply (det_positive d P (chol P) (ro_chol _ _ _ _ _ RO)). Qed.
Lemma G_T z : length z = d -> ln (G (T z)) = ln (std_normal z) + ln (Rabs (determinant P)) / 2.
Proof.
  intros Z. unfold G, T, g. rewrite (back_image d (chol P) C (ro_solve _ _ _ _ _ RO)) by exact Z. rewrite (ro_det _ _ _ _ _ RO).
  pose proof (det_positive d P (chol P) (ro_chol _ _ _ _ _ RO)) as DP. rewrite Rabs_right by lra.
  rewrite ln_mult by (try apply std_normal_pos; now apply sqrt_lt_R0). f_equal. rewrite <- Rpower_sqrt by exact DP. unfold Rpower. rewrite ln_exp. lra.
Qed.
Lemma G_density h : space d (fun z => h (T z) * std_normal z) = space d (fun u => h u * G u).
Proof. apply (g_density d P (chol P) C (ro_chol _ _ _ _ _ RO) (ro_solve _ _ _ _ _ RO)). Qed.

Lemma weights_eq z k li lj : sized d k z -> (forall u, sized d k u -> li k u = Ok (map (fun j => lj (draw u j)) (seq 0 k))) ->
  find_log_weights chol solve determinant z k li mean P = Ok (map (fun j => lj (T (draw z j)) - ln (G (T (draw z j)))) (seq 0 k)).
Proof.
  intros SZ H. destruct (transform_draw z k SZ) as [ST DT]. unfold find_log_weights. rewrite H by exact ST. cbn [bind]. f_equal.
  unfold vsub, map2.
  assert (CM : forall (A B : Type) (f1 : nat -> A) (f2 : nat -> B) l, combine (map f1 l) (map f2 l) = map (fun j => (f1 j, f2 j)) l) by (intros A B f1 f2 l; induction l as [|a l IH]; cbn; [reflexivity|now rewrite IH]).
  rewrite CM, map_map. apply map_ext_in. intros j Hj. apply in_seq in Hj. cbn [fst snd]. rewrite DT by lia. fold T. rewrite G_T by (rewrite draw_length; exact (proj1 SZ)).
  change (column j z) with (draw z j). rewrite sum_log_dnorm. reflexivity.
Qed.
End Est.

Theorem C44_estimate_main fam n m r y w theta beta chol solve determinant mean P : fits n m r y w theta beta ->
  length mean = nrandom m -> routines (nrandom m) chol solve determinant P ->
  let d := nrandom m in let lj := log_joint n (linkinv fam) (dev_resids fam) m y w beta theta in
  exists T g, (forall u, 0 < g u) /\ space d g = 1 /\
  (forall nIS z, sized d nIS z -> sized d nIS (transform_normal chol solve z nIS mean P) /\
     forall j, (j < nIS)%nat -> draw (transform_normal chol solve z nIS mean P) j = T (draw z j)) /\
  (forall h, space d (fun z => h (T z) * std_normal z) = space d (fun u => h u * g u)) /\
  space d (fun z => exp (lj (T z)) / g (T z) * std_normal z) = space d (fun u => exp (lj u)) /\
  forall nIS z, (0 < nIS)%nat -> sized d nIS z ->
    lfun_IS chol solve determinant z nIS fam m r (theta ++ beta) mean P =
      Ok (ln (average nIS (fun j => exp (lj (T (draw z j))) / g (T (draw z j))))) /\
    average nIS (fun j => lj (T (draw z j)) - ln (g (T (draw z j)))) <= ln (average nIS (fun j => exp (lj (T (draw z j))) / g (T (draw z j)))).
Proof.
  intros F LM RO d lj. exists (image d (solve (chol P)) mean), (g d P (chol P) mean).
  pose proof (G_pos chol solve determinant d mean P RO) as GP. pose proof (G_density chol solve determinant d mean P RO) as GD.
  split; [exact GP|]. split; [exact (eq_trans (space_ext d _ _ (fun u _ => eq_sym (Rmult_1_l _))) (eq_trans (eq_sym (GD (fun _ => 1))) (eq_trans (space_ext d _ _ (fun u _ => Rmult_1_l _)) (space_std_normal d))))|].
  split; [intros nIS z SZ; exact (transform_draw chol solve determinant d mean P RO LM z nIS SZ)|]. split; [exact GD|]. split.
  - rewrite (GD (fun u => exp (lj u) / g d P (chol P) mean u)). apply space_ext. intros u _. specialize (GP u). field. lra.
  - intros nIS z HN SZ.
    pose proof (weights_eq chol solve determinant d mean P RO LM z nIS (find_log_integrand fam (theta ++ beta) m r) lj SZ
      (fun u SU => C44_integrand_main fam n m r y w theta beta F nIS u HN SU)) as HW.
    set (T := image d (solve (chol P)) mean) in *. set (G := g d P (chol P) mean) in *.
    set (ww := map (fun j => lj (T (draw z j)) - ln (G (T (draw z j)))) (seq 0 nIS)) in *.
    assert (NE : ww <> []) by (unfold ww; destruct nIS; [lia|discriminate]).
    assert (EE : mean_of (map exp ww) = average nIS (fun j => exp (lj (T (draw z j))) / G (T (draw z j)))).
    { unfold ww. rewrite map_map, mean_average. unfold average. f_equal. apply sumR_ext. intros j _. unfold Rminus. rewrite exp_plus, exp_Ropp, exp_ln by apply GP. reflexivity. }
    split.
    + unfold lfun_IS. rewrite HW. cbn [bind]. f_equal. rewrite log_mean_exp by exact NE. now rewrite EE.
    + rewrite <- EE, <- mean_average. exact (jensen ww NE).
Qed.

(** The covariances of the draws. *)
Theorem C44_covariance_main d chol solve determinant P : routines d chol solve determinant P ->
  forall i j, (i < d)%nat -> (j < d)%nat ->
  sumR d (fun k => image_cov d (solve (chol P)) i k * sumR d (fun l => at_ (chol P) k l * at_ (chol P) j l)) = MatrixSpec.unit_entry i j.
Proof. intros RO i j Hi Hj. exact (cov_inverse d (chol P) (solve (chol P)) (ro_solve _ _ _ _ _ RO) i j Hi Hj). Qed.
