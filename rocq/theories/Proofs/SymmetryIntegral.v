(** Integrals over one argument of a function with the signs of some arguments changed. *)
From Coq Require Import List Arith ZArith Bool Lia Reals Lra.
From Verif Require Import Model.Base Model.Mixed Model.Vectors Model.MultiNormal Model.Quadrature Model.IntegratedFunction Spec.GLMMSpec Spec.MatrixSpec Spec.StoreSpec
  Spec.FramesSpec Spec.SymmetrySpec Spec.SymmetryStoreSpec
  Proofs.ListLemmas Proofs.GLMMLemmas Proofs.VectorLemmas Proofs.SumLemmas Proofs.StoreMain Proofs.SignMain Proofs.MirrorMain Proofs.SymmetryMain Proofs.SymmetryStore.
Import ListNotations.
Local Open Scope R_scope.

(** * Quadrature by components *)
Definition total (r : rule) (h : R -> R) : R := fold_right Rplus 0 (map (fun p => snd p * h (fst p)) (combine (qr_nodes r) (qr_weights r))).
Lemma total_ext r g h : (forall u, g u = h u) -> total r g = total r h.
Proof. intros E. unfold total. f_equal. apply map_ext. intros p. now rewrite E. Qed.
Lemma total_sign r a h : symmetric_rule r -> sign a -> total r (fun u => h (a * u)) = total r h.
Proof.
  intros Hr [->| ->]; [apply total_ext; intros u; now rewrite Rmult_1_l|]. refine (eq_trans _ (Hr h)). apply (total_ext r (fun u => h (-1 * u)) (fun u => h (- u))). intros u. f_equal. ring.
Qed.
Lemma fold_sum {X} (g : X -> R) l a : fold_left (fun s p => s + g p) l a = a + fold_right Rplus 0 (map g l).
Proof. revert a. induction l as [|p l IH]; intros a; cbn [fold_left map fold_right]; [ring|]. rewrite IH. ring. Qed.
Lemma int_scalar f loc sigma r : integrate1D f loc sigma r = sqrt 2 * sigma * total r (fun u => f (sqrt 2 * sigma * u + loc) * exp (u ^ 2)).
Proof.
  unfold integrate1D. cbn zeta. f_equal. etransitivity; [apply (fold_sum (fun p => snd p * f (sqrt 2 * sigma * fst p + loc) * exp (fst p ^ 2)))|].
  rewrite Rplus_0_l. unfold total. f_equal. apply map_ext. intros p. ring.
Qed.
Lemma vec_len F d loc sigma r : (forall t, length (F t) = d) -> length (integrate1DVector F d loc sigma r) = d.
Proof.
  intros HF. unfold integrate1DVector. cbn zeta. rewrite vscale_length. generalize (repeat_length 0 d). generalize (repeat 0 d). induction (combine (qr_nodes r) (qr_weights r)) as [|p l IH]; intros acc La; [exact La|].
  cbn [fold_left]. apply IH. apply vadd_length; [exact La|now rewrite vscale_length].
Qed.
Lemma int_vector F d loc sigma r i : (forall t, length (F t) = d) -> (i < d)%nat ->
  nth i (integrate1DVector F d loc sigma r) 0 = sqrt 2 * sigma * total r (fun u => nth i (F (sqrt 2 * sigma * u + loc)) 0 * exp (u ^ 2)).
Proof.
  intros HF Hi. unfold integrate1DVector. cbn zeta. rewrite nth_vscale. f_equal. unfold total.
  assert (G : forall l acc, length acc = d -> nth i (fold_left (fun ret nw => vadd ret (vscale (snd nw * exp (fst nw ^ 2)) (F (sqrt 2 * sigma * fst nw + loc)))) l acc) 0 =
    nth i acc 0 + fold_right Rplus 0 (map (fun p => snd p * (nth i (F (sqrt 2 * sigma * fst p + loc)) 0 * exp (fst p ^ 2))) l)).
  { induction l as [|p l IH]; intros acc La; cbn [fold_left map fold_right]; [ring|]. assert (Lv : length (vscale (snd p * exp (fst p ^ 2)) (F (sqrt 2 * sigma * fst p + loc))) = d) by now rewrite vscale_length.
    rewrite IH by now apply vadd_length. rewrite (nth_vadd i _ _ d) by auto. rewrite nth_vscale. ring. }
  rewrite G by apply repeat_length. rewrite nth_zeros. ring.
Qed.
Lemma mat_square F d loc sigma r : (forall t, square d (F t)) -> square d (integrate1DMatrix F d loc sigma r).
Proof.
  intros HF. unfold integrate1DMatrix. cbn zeta. apply mscale_square. assert (Z : square d (mzero d)).
  { unfold mzero. split; [apply repeat_length|]. intros i Hi. rewrite SplineLemmas.nth_repeat_lt by auto. apply repeat_length. }
  revert Z. generalize (mzero d). induction (combine (qr_nodes r) (qr_weights r)) as [|p l IH]; intros acc Qa; [exact Qa|].
  cbn [fold_left]. apply IH. apply madd_square; [exact Qa|now apply mscale_square].
Qed.
Lemma int_matrix F d loc sigma r i j : (forall t, square d (F t)) -> (i < d)%nat -> (j < d)%nat ->
  entry (integrate1DMatrix F d loc sigma r) i j = sqrt 2 * sigma * total r (fun u => entry (F (sqrt 2 * sigma * u + loc)) i j * exp (u ^ 2)).
Proof.
  intros HF Hi Hj. unfold integrate1DMatrix. cbn zeta. rewrite entry_mscale. f_equal. unfold total.
  assert (Z : square d (mzero d)).
  { unfold mzero. split; [apply repeat_length|]. intros a Ha. rewrite SplineLemmas.nth_repeat_lt by auto. apply repeat_length. }
  assert (G : forall l acc, square d acc -> entry (fold_left (fun ret nw => madd ret (mscale (snd nw * exp (fst nw ^ 2)) (F (sqrt 2 * sigma * fst nw + loc)))) l acc) i j =
    entry acc i j + fold_right Rplus 0 (map (fun p => snd p * (entry (F (sqrt 2 * sigma * fst p + loc)) i j * exp (fst p ^ 2))) l)).
  { induction l as [|p l IH]; intros acc La; cbn [fold_left map fold_right]; [ring|].
    assert (Lv : square d (mscale (snd p * exp (fst p ^ 2)) (F (sqrt 2 * sigma * fst p + loc)))) by now apply mscale_square.
    rewrite IH by now apply madd_square. rewrite (entry_madd d) by auto. rewrite entry_mscale. ring. }
  rewrite G by auto. unfold mzero, entry. rewrite SplineLemmas.nth_repeat_lt by auto. rewrite nth_zeros. ring.
Qed.

(** * Matrices without rows *)
Lemma no_rows A : square 0 A -> A = [].
Proof. intros [L _]. now apply length_zero_iff_nil. Qed.
Lemma fsq d s A : length s = d -> square d A -> square d (flip_matrix s A).
Proof.
  intros Ls QA. destruct d; [|apply fm_square; auto; lia]. rewrite (no_rows A QA). destruct s; [|discriminate]. cbn. split; [reflexivity|]. intros i Hi. lia.
Qed.
Lemma fadd d s A C : length s = d -> square d A -> square d C -> flip_matrix s (madd A C) = madd (flip_matrix s A) (flip_matrix s C).
Proof. intros Ls QA QC. destruct d; [|apply (fm_madd (S d)); auto; lia]. rewrite (no_rows A QA), (no_rows C QC). now destruct s. Qed.
Lemma fsub d s A C : length s = d -> square d A -> square d C -> flip_matrix s (msub A C) = msub (flip_matrix s A) (flip_matrix s C).
Proof. intros Ls QA QC. destruct d; [|apply (fm_msub (S d)); auto; lia]. rewrite (no_rows A QA), (no_rows C QC). now destruct s. Qed.
Lemma fscale d s c A : length s = d -> square d A -> flip_matrix s (mscale c A) = mscale c (flip_matrix s A).
Proof. intros Ls QA. destruct d; [|apply (fm_mscale (S d)); auto; lia]. rewrite (no_rows A QA). now destruct s. Qed.

(** * Leaving out one component *)
Section Without.
Variables (m o : nat).
Hypothesis Ho : (o <= m)%nat.
Variable s : list R.
Hypothesis Ls : length s = S m.
Hypothesis Fs : List.Forall sign s.
Notation so := (nth o s 0).
Notation sr := (erase s o).
Lemma up_lt' i : (i < m)%nat -> (up o i < S m)%nat.
Proof. intros Hi. apply up_lt; auto. Qed.
Lemma sr_len : length sr = m.
Proof. now apply erase_length. Qed.
Lemma so_sign : sign so.
Proof. rewrite Forall_forall in Fs. apply Fs, nth_In. lia. Qed.
Lemma sr_sign : List.Forall sign sr.
Proof.
  apply Forall_forall. intros a Ha. apply (In_nth _ _ 0) in Ha. destruct Ha as (i & Hi & <-). rewrite nth_erase. rewrite sr_len in Hi. rewrite Forall_forall in Fs. apply Fs, nth_In.
  rewrite Ls. now apply up_lt'.
Qed.
Lemma erase_flip u : length u = S m -> erase (flip s u) o = flip sr (erase u o).
Proof.
  intros Lu. assert (Lf := flip_len (S m) s Ls u Lu). assert (L1 := erase_length u o m Lu Ho). assert (L2 := sr_len).
  apply (vec_ext _ _ m); [now apply erase_length|apply (flip_len m sr L2); auto|]. intros i Hi. rewrite nth_erase. rewrite !flip_nth by congruence. now rewrite !nth_erase.
Qed.
Lemma insert_flip x t : length x = m -> insert o (flip sr x) (so * t) = flip s (insert o x t).
Proof.
  intros Lx. assert (L2 := sr_len). assert (Lf := flip_len m sr L2 x Lx). assert (Li : length (insert o x t) = S m) by (rewrite insert_length; lia).
  assert (Lfi := flip_len (S m) s Ls _ Li). apply (vec_ext _ _ (S m)); [rewrite insert_length; lia|auto|]. intros i Hi. rewrite flip_nth by congruence.
  destruct (Nat.eq_dec i o) as [->|N]; [rewrite !nth_insert_same by lia; reflexivity|].
  assert (exists j, i = up o j /\ (j < m)%nat) as (j & -> & Hj).
  { unfold up. destruct (Nat.lt_ge_cases i o); [exists i|exists (i - 1)%nat]; destruct (Nat.ltb_spec i o); destruct (Nat.ltb_spec (i - 1) o); lia. }
  rewrite !nth_insert_up by lia. rewrite flip_nth by congruence. now rewrite nth_erase.
Qed.
Lemma without_square A : square (S m) A -> square m (getMatrixWithout o A).
Proof.
  intros [LA RA]. split; [unfold getMatrixWithout; rewrite map_length; now apply erase_length|]. intros i Hi. rewrite (nth_mwithout o i A m) by auto.
  apply erase_length; [apply RA; now apply up_lt'|exact Ho].
Qed.
Lemma without_entry A i j : square (S m) A -> (i < m)%nat -> entry (getMatrixWithout o A) i j = entry A (up o i) (up o j).
Proof. intros [LA RA] Hi. unfold entry. rewrite (nth_mwithout o i A m) by auto. apply nth_erase. Qed.
Lemma without_flip A : square (S m) A -> getMatrixWithout o (flip_matrix s A) = flip_matrix sr (getMatrixWithout o A).
Proof.
  intros QA. assert (QF := fsq (S m) s A Ls QA). assert (QW := without_square A QA). apply (mat_ext m); [now apply without_square|apply (fsq m sr _ sr_len); auto|].
  intros i j Hi Hj. rewrite without_entry by auto. rewrite (fm_entry (S m) s Ls) by (auto; now apply up_lt'). rewrite (fm_entry m sr sr_len) by auto. rewrite without_entry by auto.
  now rewrite !nth_erase.
Qed.
Lemma row_flip A : square (S m) A -> erase (nth o (flip_matrix s A) []) o = vscale so (flip sr (erase (nth o A []) o)).
Proof.
  intros [LA RA]. assert (L2 := sr_len). assert (Lr : length (nth o A []) = S m) by (apply RA; lia). assert (Le := erase_length _ o m Lr Ho). assert (Lf := flip_len (S m) s Ls _ Lr).
  rewrite (nth_flip_matrix (S m) s Ls) by (auto; lia). apply (vec_ext _ _ m).
  - apply erase_length; [now rewrite map_length|auto].
  - rewrite vscale_length. apply (flip_len m sr L2). auto.
  - intros i Hi. rewrite nth_erase. rewrite (nth_map_lt _ _ _ _ 0) by (rewrite Lf; now apply up_lt'). rewrite nth_vscale. rewrite !flip_nth by congruence. now rewrite !nth_erase.
Qed.
Lemma corner_flip A : square (S m) A -> entry (flip_matrix s A) o o = entry A o o.
Proof.
  intros QA. rewrite (fm_entry (S m) s Ls) by (auto; lia). rewrite <- Rmult_assoc. rewrite (sign_sq (S m) s Ls Fs) by lia. ring.
Qed.

(** * The integral *)
Variables (inverse : rmat -> rmat) (determinant : rmat -> R) (isProper : mnormal -> bool) (r : rule).
Hypothesis Hr : symmetric_rule r.
Variables (n n' : mnormal).
Hypothesis Lm : length (no_mean n) = S m.
Hypothesis QV : square (S m) (no_variance n).
Hypothesis En : no_mean n' = flip s (no_mean n).
Hypothesis EV : no_variance n' = flip_matrix s (no_variance n).
Hypothesis Pn : isProper n = true.
Hypothesis Pn' : isProper n' = true.
Hypothesis Inv : (0 < m)%nat -> exists C, are_inverse m (getMatrixWithout o (no_variance n)) C.
Hypothesis HI : forall A, inverts inverse m A.
Variables (f f' : rvec -> R) (f1 f1' : rvec -> rvec) (f2 f2' : rvec -> rmat).
Hypothesis L1 : forall y, length y = S m -> length (f1 y) = S m.
Hypothesis Q2 : forall y, length y = S m -> square (S m) (f2 y).
Hypothesis Ef : forall y, length y = S m -> f' y = f (flip s y).
Hypothesis E1 : forall y, length y = S m -> f1' y = flip s (f1 (flip s y)).
Hypothesis E2 : forall y, length y = S m -> f2' y = flip_matrix s (f2 (flip s y)).
Notation I := (make_ifun inverse determinant isProper o f f1 f2 n).
Notation I' := (make_ifun inverse determinant isProper o f' f1' f2' n').
Lemma parts : if_over I = o /\ if_function I = f /\ if_derivative I = f1 /\ if_secondDerivative I = f2 /\ length (if_mean2 I) = m /\ length (if_cross I) = m /\
  if_over I' = o /\ if_function I' = f' /\ if_derivative I' = f1' /\ if_secondDerivative I' = f2' /\
  if_logValueAtMean I' = if_logValueAtMean I /\ if_mean1 I' = so * if_mean1 I /\ if_mean2 I' = flip sr (if_mean2 I) /\
  if_cross I' = vscale so (flip sr (if_cross I)) /\ if_sigma I' = if_sigma I.
Proof.
  assert (QF := fsq (S m) s _ Ls QV). assert (L2 := sr_len). assert (Hrow : forall A, square (S m) A -> length (hd [] A) = S m) by (intros A HA; apply (hd_length (S m)); [auto|lia]).
  assert (Lf := flip_len (S m) s Ls _ Lm).
  unfold make_ifun, initializeNormal, getVectorWithout. rewrite Pn, Pn', EV, En. rewrite (proj1 QV), (proj1 QF), !Hrow by auto. rewrite without_flip, row_flip by auto.
  change (nth o (nth o (flip_matrix s (no_variance n)) []) 0) with (entry (flip_matrix s (no_variance n)) o o). rewrite corner_flip by auto.
  assert (EfM : f' (flip s (no_mean n)) = f (no_mean n)) by (rewrite Ef by auto; rewrite flip_flip; [reflexivity|congruence|exact Fs]).
  assert (Em1 : nth o (flip s (no_mean n)) 0 = so * nth o (no_mean n) 0) by (apply flip_nth; congruence).
  destruct (Nat.eq_dec m 0) as [Z|NZ].
  - replace (Nat.ltb 1 (S m * S m)) with false by (rewrite Z; reflexivity). cbn [if_over if_function if_derivative if_secondDerivative if_mean2 if_cross if_logValueAtMean if_mean1 if_sigma].
    rewrite EfM, Em1, erase_flip by auto. repeat (split; [reflexivity|]). split; [now apply erase_length|]. split; [symmetry; exact Z|]. repeat (split; [reflexivity|]). split; [now destruct sr|].
    f_equal. assert (Z2 : 0%nat = o) by lia. generalize (corner_flip (no_variance n) QV). unfold entry. rewrite <- Z2. auto.
  - assert (Hlt : Nat.ltb 1 (S m * S m) = true) by (apply Nat.ltb_lt; lia). rewrite Hlt.
    cbn [if_over if_function if_derivative if_secondDerivative if_mean2 if_cross if_logValueAtMean if_mean1 if_sigma]. rewrite EfM, Em1, erase_flip by auto. assert (Hm : (0 < m)%nat) by lia.
    destruct (Inv Hm) as (C & HC). assert (QC : square m C) by apply HC. assert (QW := without_square _ QV).
    assert (EC : inverse (getMatrixWithout o (no_variance n)) = C) by now apply HI.
    assert (EC' : inverse (flip_matrix sr (getMatrixWithout o (no_variance n))) = flip_matrix sr C) by (apply HI; apply (fm_inverse m Hm sr L2 sr_sign); exact HC).
    rewrite EC, EC'. set (w := erase (nth o (no_variance n) []) o). assert (Lw : length w = m) by (apply erase_length; [apply QV; lia|auto]).
    assert (Lfw := flip_len m sr L2 w Lw). assert (LC : length (mvmul C w) = m) by (rewrite mvmul_length; apply QC).
    assert (ECr : mvmul (flip_matrix sr C) (vscale so (flip sr w)) = vscale so (flip sr (mvmul C w))).
    { rewrite <- !(flip_vscale m sr L2) by auto. rewrite (fm_mvmul m Hm sr L2 sr_sign) by (auto; now rewrite vscale_length). f_equal.
      apply (vec_ext _ _ m); [rewrite mvmul_length; apply QC|now rewrite vscale_length|]. intros i Hi. rewrite nth_vscale. rewrite !(nth_mvmul m) by (auto; now rewrite vscale_length).
      rewrite <- sumR_scal. apply sumR_ext. intros j Hj. rewrite nth_vscale. ring. }
    rewrite ECr. repeat (split; [reflexivity|]). split; [now apply erase_length|]. split; [exact LC|]. repeat (split; [reflexivity|]). f_equal. f_equal.
    rewrite !vdot_scalar, scalar_vscale, scalar_comm, scalar_vscale, scalar_comm, <- !vdot_scalar. rewrite (flip_vdot m sr L2 sr_sign) by auto.
    rewrite <- Rmult_assoc. rewrite (sign_sq (S m) s Ls Fs) by lia. ring.
Qed.

Section At.
Variable x : rvec.
Hypothesis Lx : length x = m.
Notation y := (flip sr x).
Lemma mean_flip : findConditionalMean I' x = so * findConditionalMean I y.
Proof.
  destruct parts as (_ & _ & _ & _ & LM & LC & _ & _ & _ & _ & _ & M1 & M2 & CR & _). assert (L2 := sr_len). assert (Ly := flip_len m sr L2 x Lx).
  unfold findConditionalMean. rewrite Ly, Lx, M1, M2, CR. destruct (Nat.ltb 0 m); [|reflexivity].
  assert (Ex : x = flip sr y) by (symmetry; apply flip_flip; [congruence|apply sr_sign]). rewrite Ex at 1. rewrite <- (flip_vsub m sr L2) by auto.
  rewrite vdot_scalar, scalar_vscale, <- vdot_scalar. rewrite (flip_vdot m sr L2 sr_sign) by (auto; now apply vsub_length). ring.
Qed.
Lemma arg_flip t : flip s (insert o x t) = insert o y (so * t).
Proof. symmetry. now apply insert_flip. Qed.
Lemma arg_len t : length (insert o x t) = S m.
Proof. rewrite insert_length. lia. Qed.
Lemma arg_len' t : length (insert o y t) = S m.
Proof. rewrite insert_length. f_equal. apply (flip_len m sr sr_len x Lx). Qed.
(** The change of variable. *)
Lemma change a sigma c (g g' : R -> R) : (forall t, g' t = a * g (so * t)) ->
  total r (fun u => g' (sqrt 2 * sigma * u + so * c) * exp (u ^ 2)) = a * total r (fun u => g (sqrt 2 * sigma * u + c) * exp (u ^ 2)).
Proof.
  intros E. pose proof so_sign as SO. assert (S2 : so * so = 1) by (apply (sign_sq (S m) s Ls Fs); lia).
  rewrite <- (total_sign r so (fun u => g (sqrt 2 * sigma * u + c) * exp (u ^ 2)) Hr SO).
  assert (T : forall h, a * total r h = total r (fun u => a * h u)).
  { intros h. unfold total. induction (combine (qr_nodes r) (qr_weights r)) as [|p l IH]; cbn [map fold_right]; [ring|]. rewrite <- IH. ring. }
  rewrite T. apply total_ext. intros u. rewrite E. replace (so * (sqrt 2 * sigma * u + so * c)) with (sqrt 2 * sigma * (so * u) + so * so * c) by ring. rewrite S2, Rmult_1_l.
  replace ((so * u) ^ 2) with (so * so * u ^ 2) by ring. rewrite S2, Rmult_1_l. ring.
Qed.
Lemma value_arg t : f' (insert o x t) = f (insert o y (so * t)).
Proof. rewrite Ef by apply arg_len. now rewrite arg_flip. Qed.
Lemma noLog_flip : integrateNoLog I' x (so * findConditionalMean I y) r = integrateNoLog I y (findConditionalMean I y) r.
Proof.
  destruct parts as (P1 & P2 & _ & _ & _ & _ & P1' & P2' & _ & _ & LV & _ & _ & _ & SG). unfold integrateNoLog, extendArgument. rewrite P1, P1', P2, P2', LV, SG, !int_scalar. f_equal.
  rewrite (change 1 _ _ (fun t => exp (f (insert o y t) - if_logValueAtMean I)) (fun t => exp (f' (insert o x t) - if_logValueAtMean I))); [ring|]. intros t. now rewrite value_arg, Rmult_1_l.
Qed.
Lemma derivative_flip : let D := integrateDerivativeNoLog I y (findConditionalMean I y) r in
  integrateDerivativeNoLog I' x (so * findConditionalMean I y) r = flip sr D /\ length D = m.
Proof.
  destruct parts as (P1 & P2 & P3 & _ & _ & LC & P1' & P2' & P3' & _ & LV & _ & _ & CR & SG). assert (L2 := sr_len). assert (Ly := flip_len m sr L2 x Lx).
  intros D. unfold D, integrateDerivativeNoLog, extendArgument. rewrite P1, P1', P2, P2', P3, P3', LV, SG, CR, Ly, Lx. cbn zeta.
  set (G := fun t => vadd _ _). set (G' := fun t => vadd _ (vscale _ (vneg (if_cross I)))).
  assert (LG' : forall t, length (G' t) = m).
  { intros t. unfold G'. apply vadd_length; [unfold getVectorWithout; apply erase_length; [rewrite vscale_length; apply L1, arg_len'|auto]|rewrite vscale_length, vneg_length; auto]. }
  assert (Lc : length (vscale so (flip sr (if_cross I))) = m) by (rewrite vscale_length; apply (flip_len m sr L2); auto).
  assert (LE : forall t, length (f1' (insert o x t)) = S m).
  { intros t. rewrite E1 by apply arg_len. rewrite arg_flip. apply (flip_len (S m) s Ls). apply L1, arg_len'. }
  assert (LG : forall t, length (G t) = m).
  { intros t. unfold G. apply vadd_length; [unfold getVectorWithout; apply erase_length; [now rewrite vscale_length|auto]|rewrite vscale_length, vneg_length; auto]. }
  assert (HG : forall t i, (i < m)%nat -> nth i (G t) 0 = nth i sr 0 * nth i (G' (so * t)) 0).
  { intros t i Hi. unfold G, G'. rewrite !(nth_vadd i _ _ m); auto; try (unfold getVectorWithout; apply erase_length; [rewrite vscale_length; auto; apply L1, arg_len'|auto]); try (rewrite vscale_length, vneg_length; auto).
    unfold getVectorWithout. rewrite !nth_erase. rewrite !nth_vscale, !nth_vneg, !nth_vscale. rewrite value_arg. rewrite E1 by apply arg_len. rewrite arg_flip.
    rewrite !flip_nth by (rewrite ?L2, ?LC; auto; rewrite L1; auto using arg_len'). rewrite !nth_erase.
    replace (exp (f (insert o y (so * t)) - if_logValueAtMean I) * (so * nth o (f1 (insert o y (so * t))) 0) * - (so * (nth (up o i) s 0 * nth i (if_cross I) 0)))
      with (so * so * (nth (up o i) s 0 * (exp (f (insert o y (so * t)) - if_logValueAtMean I) * nth o (f1 (insert o y (so * t))) 0 * - nth i (if_cross I) 0))) by ring.
    rewrite (sign_sq (S m) s Ls Fs) by lia. ring. }
  split; [|now apply vec_len]. apply (vec_ext _ _ m); [now apply vec_len|apply (flip_len m sr L2); now apply vec_len|]. intros i Hi. rewrite flip_nth by (rewrite vec_len; auto).
  rewrite !int_vector by auto. rewrite (change (nth i sr 0) _ _ (fun t => nth i (G' t) 0) (fun t => nth i (G t) 0)); [ring|]. intros t. now apply HG.
Qed.
Lemma outer_square u v : length u = m -> length v = m -> square m (outer u v).
Proof. intros Lu Lv. split; [unfold outer; now rewrite map_length|]. intros i Hi. rewrite nth_outer by lia. now rewrite vscale_length. Qed.
Lemma outer_entry k u v i j : length u = k -> (i < k)%nat -> entry (outer u v) i j = nth i u 0 * nth j v 0.
Proof. intros Lu Hi. unfold entry. rewrite nth_outer by lia. apply nth_vscale. Qed.
Lemma second_flip : let D := integrateSecondDerivativeNoLog I y (findConditionalMean I y) r in
  integrateSecondDerivativeNoLog I' x (so * findConditionalMean I y) r = flip_matrix sr D /\ square m D.
Proof.
  destruct parts as (P1 & P2 & P3 & P4 & _ & LC & P1' & P2' & P3' & P4' & LV & _ & _ & CR & SG). assert (L2 := sr_len). assert (Ly := flip_len m sr L2 x Lx).
  intros D. unfold D, integrateSecondDerivativeNoLog, extendArgument. rewrite P1, P1', P2, P2', P3, P3', P4, P4', LV, SG, CR, Ly, Lx. cbn zeta.
  set (c := if_cross I) in *. set (c' := vscale so (flip sr c)).
  assert (Lc : length c' = m) by (unfold c'; rewrite vscale_length; apply (flip_len m sr L2); auto).
  set (H := fun t => mscale (exp (f (insert o y t) - if_logValueAtMean I)) (madd (f2 (insert o y t)) (outer (f1 (insert o y t)) (f1 (insert o y t))))).
  set (H' := fun t => mscale (exp (f' (insert o x t) - if_logValueAtMean I)) (madd (f2' (insert o x t)) (outer (f1' (insert o x t)) (f1' (insert o x t))))).
  set (W := fun (cc : rvec) (M : rmat) => madd (msub (msub (getMatrixWithout o M) (outer cc (getVectorWithout o (nth o M [])))) (outer (getVectorWithout o (nth o M [])) cc)) (mscale (nth o (nth o M []) 0) (outer cc cc))).
  assert (OS : forall u v, length u = S m -> length v = S m -> square (S m) (outer u v)).
  { intros u v Lu Lv. split; [unfold outer; now rewrite map_length|]. intros i Hi. rewrite nth_outer by lia. now rewrite vscale_length. }
  assert (L1a : forall t, length (f1 (insert o y t)) = S m) by (intros t; apply L1, arg_len').
  assert (Q2a : forall t, square (S m) (f2 (insert o y t))) by (intros t; apply Q2, arg_len').
  assert (QH : forall t, square (S m) (H t)) by (intros t; apply mscale_square, madd_square; auto).
  assert (HF : forall t, H' t = flip_matrix s (H (so * t))).
  { intros t. unfold H', H. rewrite value_arg, E1, E2 by apply arg_len. rewrite arg_flip. set (z := insert o y (so * t)). assert (Lz : length (f1 z) = S m) by apply L1a. assert (Qz : square (S m) (f2 z)) by apply Q2a.
    assert (Qo := OS _ _ Lz Lz). rewrite (fscale (S m) s _ _ Ls) by now apply madd_square. f_equal. rewrite (fadd (S m) s _ _ Ls) by auto. f_equal.
    assert (Lfz := flip_len (S m) s Ls _ Lz). apply (mat_ext (S m)); [now apply OS|now apply (fsq (S m) s _ Ls)|]. intros i j Hi Hj.
    rewrite (outer_entry (S m)) by auto. rewrite (fm_entry (S m) s Ls), (outer_entry (S m)) by auto. rewrite !flip_nth by congruence. ring. }
  assert (QW : forall cc M, length cc = m -> square (S m) M -> square m (W cc M)).
  { intros cc M Lcc QM. assert (Lr : length (getVectorWithout o (nth o M [])) = m) by (apply erase_length; [apply QM; lia|auto]). unfold W.
    apply madd_square; [apply msub_square; [apply msub_square; [now apply without_square|now apply outer_square]|now apply outer_square]|now apply mscale_square, outer_square]. }
  assert (EW : forall cc M i j, length cc = m -> square (S m) M -> (i < m)%nat -> (j < m)%nat ->
    entry (W cc M) i j = entry M (up o i) (up o j) - nth i cc 0 * entry M o (up o j) - entry M o (up o i) * nth j cc 0 + entry M o o * (nth i cc 0 * nth j cc 0)).
  { intros cc M i j Lcc QM Hi Hj. assert (Lr : length (getVectorWithout o (nth o M [])) = m) by (apply erase_length; [apply QM; lia|auto]). unfold W.
    assert (O1 : square m (outer cc (getVectorWithout o (nth o M [])))) by now apply outer_square. assert (O2 : square m (outer (getVectorWithout o (nth o M [])) cc)) by now apply outer_square.
    assert (O3 : square m (outer cc cc)) by now apply outer_square. assert (WS := without_square M QM).
    rewrite (entry_madd m), !(entry_msub m), entry_mscale, !(outer_entry m), without_entry; auto; try (repeat apply msub_square; auto); try now apply mscale_square.
    unfold getVectorWithout. rewrite !nth_erase. reflexivity. }
  assert (EF : forall t i j, (i < m)%nat -> (j < m)%nat -> entry (W c' (H' t)) i j = nth i sr 0 * (nth j sr 0 * entry (W c (H (so * t))) i j)).
  { intros t i j Hi Hj. assert (Ui := up_lt' i Hi). assert (Uj := up_lt' j Hj). assert (Hoo : (o < S m)%nat) by lia. assert (QF := fsq (S m) s _ Ls (QH (so * t))). rewrite HF. rewrite !EW by auto. rewrite !(fm_entry (S m) s Ls) by auto.
    unfold c'. rewrite !nth_vscale, !flip_nth by congruence. rewrite !nth_erase. pose proof (sign_sq (S m) s Ls Fs o Hoo) as SQ. set (a := so) in *.
    set (si := nth (up o i) s 0). set (sj := nth (up o j) s 0). set (ci := nth i c 0). set (cj := nth j c 0). set (M := H (a * t)).
    replace (si * (sj * entry M (up o i) (up o j)) - a * (si * ci) * (a * (sj * entry M o (up o j))) - a * (si * entry M o (up o i)) * (a * (sj * cj)) + a * (a * entry M o o) * (a * (si * ci) * (a * (sj * cj))))
      with (si * (sj * (entry M (up o i) (up o j) - a * a * (ci * entry M o (up o j)) - a * a * (entry M o (up o i) * cj) + (a * a) * (a * a) * (entry M o o * (ci * cj))))) by ring.
    rewrite SQ. ring. }
  change (integrate1DMatrix (fun t => W c' (H' t)) m (so * findConditionalMean I y) (if_sigma I) r = flip_matrix sr (integrate1DMatrix (fun t => W c (H t)) m (findConditionalMean I y) (if_sigma I) r) /\
    square m (integrate1DMatrix (fun t => W c (H t)) m (findConditionalMean I y) (if_sigma I) r)).
  assert (QW' : forall t, square m (W c' (H' t))) by (intros t; apply QW; auto; rewrite HF; apply (fsq (S m) s _ Ls); auto).
  assert (QWc : forall t, square m (W c (H t))) by (intros t; apply QW; auto).
  assert (QI := mat_square (fun t => W c (H t)) m (findConditionalMean I y) (if_sigma I) r QWc).
  split; [|exact QI]. apply (mat_ext m); [now apply mat_square|now apply (fsq m sr _ L2)|]. intros i j Hi Hj. rewrite (fm_entry m sr L2) by auto.
  rewrite !int_matrix by auto. rewrite (change (nth i sr 0 * nth j sr 0) _ _ (fun t => entry (W c (H t)) i j) (fun t => entry (W c' (H' t)) i j)); [ring|]. intros t. rewrite EF by auto. ring.
Qed.
Lemma C86_integral_lemma :
  if_evaluate I' r x = if_evaluate I r y /\
  (if_evaluateDerivative I' r x = flip sr (if_evaluateDerivative I r y) /\ length (if_evaluateDerivative I r y) = m) /\
  (if_evaluateSecondDerivative I' r x = flip_matrix sr (if_evaluateSecondDerivative I r y) /\ square m (if_evaluateSecondDerivative I r y)).
Proof.
  destruct parts as (_ & _ & _ & _ & _ & _ & _ & _ & _ & _ & LV & _). assert (L2 := sr_len). destruct derivative_flip as [D1 D2]. destruct second_flip as [S1 S2].
  unfold if_evaluate, if_evaluateDerivative, if_evaluateSecondDerivative. cbn zeta. rewrite mean_flip, noLog_flip, LV, D1, S1.
  set (dd := integrateDerivativeNoLog I y _ r) in *. set (hh := integrateSecondDerivativeNoLog I y _ r) in *. set (v := integrateNoLog I y _ r).
  split; [reflexivity|]. split; [split; [symmetry; now apply (flip_vscale m sr L2)|now rewrite vscale_length]|].
  assert (Q0 := outer_square dd dd D2 D2). assert (Qm := mscale_square m v hh S2). split; [|now apply mscale_square, msub_square].
  rewrite (fscale m sr _ _ L2) by now apply msub_square. f_equal. rewrite (fsub m sr _ _ L2) by auto. rewrite (fscale m sr _ _ L2) by auto. f_equal.
  assert (Lf := flip_len m sr L2 dd D2). apply (mat_ext m); [now apply outer_square|now apply (fsq m sr _ L2)|]. intros i j Hi Hj. rewrite (outer_entry m) by auto.
  rewrite (fm_entry m sr L2), (outer_entry m) by auto. rewrite !flip_nth by congruence. ring.
Qed.
End At.
End Without.
