(** The linear predictor of model frames that are put together. *)
From Coq Require Import List Reals ZArith Bool Arith Sorted Lia Lra.
From Verif Require Import Model.Base Model.Family Model.GLMM Model.SplitFrame Model.Frames Spec.Numbers Spec.GLMMSpec Spec.SplitSpec Spec.FramesSpec
  Proofs.ListLemmas Proofs.GLMMLemmas Proofs.GLMMMain Proofs.SumLemmas Proofs.SplitLemmas Proofs.SplitMain Proofs.ConcatMain.
Import ListNotations.
Local Open Scope R_scope.

Lemma sumR_add a b f : sumR (a + b) f = sumR a f + sumR b (fun i => f (a + i)%nat).
Proof.
  revert f. induction a as [|a IH]; intros f; [rewrite sumR_0, Rplus_0_l; reflexivity|]. cbn [Nat.add]. rewrite !sumR_S, IH. apply eq_sym, Rplus_assoc.
Qed.
Lemma sumR_nil n f : (forall i, (i < n)%nat -> f i = 0) -> sumR n f = 0.
Proof. intros H. rewrite (sumR_ext n f (fun _ => 0)) by exact H. apply sumR_zero. Qed.

Lemma fill_x_app {A B} (c1 c2 : list (list (nat * A))) : forall (x1 x2 : list B), length x1 = length (concat c1) ->
  fill_x (c1 ++ c2) (x1 ++ x2) = fill_x c1 x1 ++ fill_x c2 x2.
Proof.
  induction c1 as [|c c1 IH]; intros x1 x2 H; cbn [app concat fill_x] in *; [destruct x1; [reflexivity|discriminate H]|].
  rewrite app_length in H. rewrite firstn_app, skipn_app. replace (length c - length x1)%nat with O by lia. cbn [firstn skipn]. rewrite app_nil_r.
  f_equal. apply IH. rewrite skipn_length. lia.
Qed.


Lemma combine_shift {A B} d (g : B -> B) (a : list (nat * A)) (y : list B) :
  combine (map fst (shift d a)) (map g y) = map (fun e => ((d + fst e)%nat, g (snd e))) (combine (map fst a) y).
Proof.
  revert y. induction a as [|e a IH]; intros [|z y]; cbn; try reflexivity. f_equal. apply IH.
Qed.
Lemma fill_x_shift {A B} d (g : B -> B) (c : list (list (nat * A))) : forall (x : list B),
  fill_x (map (shift d) c) (map g x) = map (map (fun e => ((d + fst e)%nat, g (snd e)))) (fill_x c x).
Proof.
  induction c as [|a c IH]; intros x; cbn [map fill_x]; [reflexivity|].
  assert (L : length (shift d a) = length a) by apply map_length. rewrite L, firstn_map, skipn_map, IH. f_equal. apply combine_shift.
Qed.

Lemma fill_x_rows {A B} (c : list (list (nat * A))) (q : nat) : (forall col e, In col c -> In e col -> (fst e < q)%nat) ->
  forall (x : list B) col e, In col (fill_x c x) -> In e col -> (fst e < q)%nat.
Proof.
  induction c as [|a c IH]; intros H x col e Hc He; [destruct Hc|]. cbn [fill_x] in Hc. destruct Hc as [<-|Hc].
  - destruct e as [i z]. apply in_combine_l in He. apply in_map_iff in He. destruct He as [y [<- Hy]]. cbn [fst]. apply (H a); [now left|exact Hy].
  - apply (IH (fun c' e' Hc' => H c' e' (or_intror Hc')) _ col e Hc He).
Qed.

Lemma fill_x_values {A B} (c : list (list (nat * A))) : forall (x : list B) col e, In col (fill_x c x) -> In e col -> In (snd e) x.
Proof.
  induction c as [|a c IH]; intros x col e Hc He; [destruct Hc|]. cbn [fill_x] in Hc. destruct Hc as [<-|Hc].
  - destruct e as [i z]. apply in_combine_r in He. cbn [snd]. rewrite <- (firstn_skipn (length a) x). apply in_app_iff. now left.
  - rewrite <- (firstn_skipn (length a) x). apply in_app_iff. right. exact (IH _ _ _ Hc He).
Qed.

Definition filled (r : retrms Rnum) : list (list (nat * Z)) := fill_x (cs_cols (rt_Lambdat _ r)) (rt_Lind _ r).

Lemma Lam_filled m r n theta i j : proper_re n r -> Lam (whole (frame_of m r)) theta i j = LamM (filled r) theta i j.
Proof.
  intros P. apply Lam_M; cbn [whole frame_of gd_Lambdat gd_Lind sp_cols fr_Lambdat fr_Lind].
  - symmetry. apply fill_x_fst. exact (pr_Lind _ _ P).
  - unfold filled. now rewrite (fill_x_snd _ _ (pr_Lind _ _ P)).
Qed.

(** The part of the random effects. *)
Definition part (r : retrms Rnum) (theta u : list R) (k : nat) : R :=
  sumR (length u) (fun i => sumR (cs_rows (rt_Zt _ r)) (fun j => LamM (filled r) theta i j * entry (rt_Zt _ r) j k) * nth i u 0).

Lemma LZ_filled m r n theta i k : proper_re n r -> (k < n)%nat ->
  LZ (whole (frame_of m r)) theta i k = sumR (cs_rows (rt_Zt _ r)) (fun j => LamM (filled r) theta i j * entry (rt_Zt _ r) j k).
Proof.
  intros P K. unfold LZ. cbn [whole frame_of gd_Zt fr_Zt]. rewrite map_length, seq_length. apply sumR_ext. intros j Hj.
  change (Lam (whole (frame_of m r)) theta i j * at2 (map (fun r0 => map (entry (rt_Zt Rnum r) r0) (seq 0 (length (cs_cols (rt_Zt Rnum r))))) (seq 0 (cs_rows (rt_Zt Rnum r)))) j k = LamM (filled r) theta i j * entry (rt_Zt _ r) j k).
  rewrite (Lam_filled m r n) by exact P. f_equal. unfold at2. rewrite (nth_map_seq _ _ j) by exact Hj.
  rewrite (nth_map_seq _ _ k) by (rewrite (pr_cols _ _ P); exact K). reflexivity.
Qed.

Lemma eta_part m r n beta theta u k : proper_re n r -> (k < n)%nat ->
  eta (whole (frame_of m r)) beta theta u k = sumR (length beta) (fun j => at2 (mo_X _ m) k j * nth j beta 0) + part r theta u k.
Proof.
  intros P K. unfold eta, part. f_equal. apply sumR_ext. intros i _. now rewrite (LZ_filled m r n) by assumption.
Qed.

(** The fixed effects. *)
Lemma cbind_inv (F : num) (X1 X2 X : mat F) : cbind F X1 X2 = Ok X -> length X1 = length X2 /\ X = map (fun rr => fst rr ++ snd rr) (combine X1 X2).
Proof. unfold cbind. destruct (Nat.eqb_spec (length X1) (length X2)) as [E|]; [|discriminate]. intros [= <-]. now split. Qed.
Lemma rbind_inv (F : num) (m1 m2 m : csc F) : rbind F m1 m2 = Ok m -> length (cs_cols m1) = length (cs_cols m2) /\
  m = mkCsc (cs_rows m1 + cs_rows m2) (map (fun cc => fst cc ++ map (fun e => (cs_rows m1 + fst e, snd e)%nat) (snd cc)) (combine (cs_cols m1) (cs_cols m2))).
Proof. unfold rbind. destruct (Nat.eqb_spec (length (cs_cols m1)) (length (cs_cols m2))) as [E|]; [|discriminate]. intros [= <-]. now split. Qed.

Lemma cbind_at (X1 X2 X : list (list R)) p1 k beta1 beta2 : cbind Rnum X1 X2 = Ok X -> (forall row, In row X1 -> length row = p1) ->
  (k < length X1)%nat -> length beta1 = p1 ->
  sumR (length (beta1 ++ beta2)) (fun j => at2 X k j * nth j (beta1 ++ beta2) 0) =
  sumR (length beta1) (fun j => at2 X1 k j * nth j beta1 0) + sumR (length beta2) (fun j => at2 X2 k j * nth j beta2 0).
Proof.
  intros H R1 K L. destruct (cbind_inv Rnum X1 X2 X H) as [E EX]. clear H. set (G := fun rr : list R * list R => fst rr ++ snd rr).
  assert (N : nth k (map G (combine X1 X2)) [] = nth k X1 [] ++ nth k X2 []).
  { etransitivity; [exact (map_nth G (combine X1 X2) ([], []) k)|]. rewrite combine_nth by exact E. reflexivity. }
  assert (A : forall j, at2 X k j = nth j (nth k X1 [] ++ nth k X2 []) 0).
  { intros j. etransitivity; [exact (f_equal (fun Y => at2 Y k j) EX)|]. exact (f_equal (fun row => nth j row 0) N). }
  assert (RL : length (nth k X1 []) = p1) by (apply R1; now apply nth_In).
  rewrite app_length, sumR_add. f_equal; apply sumR_ext; intros j Hj; rewrite A; unfold at2.
  - rewrite !app_nth1 by (rewrite ?RL; lia). reflexivity.
  - rewrite (app_nth2 (nth k X1 [])) by (rewrite RL; lia). rewrite (app_nth2 beta1) by lia. rewrite RL, <- L.
    replace (length beta1 + j - length beta1)%nat with j by lia. reflexivity.
Qed.

(** The random effects. *)
Lemma pr_L' n r : proper_re n r -> forall c e, In c (cs_cols (rt_Lambdat _ r)) -> In e c -> (fst e < cs_rows (rt_Lambdat _ r))%nat.
Proof. intros P c e Hc He. rewrite (pr_Lrows _ _ P). exact (pr_L _ _ P c e Hc He). Qed.

Lemma filled_app r1 r2 (m1 := rt_Lambdat _ r1) (m2 := rt_Lambdat _ r2) Zt th lo n : proper_re n r1 -> proper_re n r2 ->
  filled (mkRe Rnum Zt th (rt_Lind _ r1 ++ map (fun l => (l + Z.of_nat (length (rt_theta _ r1)))%Z) (rt_Lind _ r2)) lo (concatenate_Matrix Rnum m1 m2)) =
  filled r1 ++ map (map (fun e => ((cs_rows (rt_Zt _ r1) + fst e)%nat, (snd e + Z.of_nat (length (rt_theta _ r1)))%Z))) (filled r2).
Proof.
  intros P1 P2. unfold filled. cbn [rt_Lambdat rt_Lind].
  assert (C : concatenate_Matrix Rnum m1 m2 = mkCsc (cs_rows m1 + cs_rows m2) (cs_cols m1 ++ map (shift (cs_rows m1)) (cs_cols m2))).
  { apply concatenate_Matrix_cols; [exact (pr_sorted _ _ P1)|exact (pr_sorted _ _ P2)| |].
    - exact (pr_L' n r1 P1).
    - exact (pr_L' n r2 P2). }
  rewrite C. cbn [cs_cols].
  etransitivity; [apply fill_x_app; exact (pr_Lind _ _ P1)|]. f_equal. rewrite fill_x_shift.
  exact (f_equal (fun d => map (map (fun e : nat * Z => ((d + fst e)%nat, (snd e + Z.of_nat (length (rt_theta _ r1)))%Z))) (filled r2)) (pr_Lrows _ _ P1)).
Qed.

Lemma LamM_app (M1 M2 : list (list (nat * Z))) (q1 t1 : nat) theta1 theta2 i j :
  length M1 = q1 -> length theta1 = t1 ->
  (forall c e, In c M1 -> In e c -> (fst e < q1)%nat /\ (1 <= snd e <= Z.of_nat t1)%Z) -> (forall c e, In c M2 -> In e c -> (1 <= snd e)%Z) ->
  LamM (M1 ++ map (map (fun e => ((q1 + fst e)%nat, (snd e + Z.of_nat t1)%Z))) M2) (theta1 ++ theta2) i j =
  if (j <? q1)%nat then (if (i <? q1)%nat then LamM M1 theta1 i j else 0)
  else if (i <? q1)%nat then 0 else LamM M2 theta2 (i - q1) (j - q1).
Proof.
  intros L1 T1 B1 B2. unfold LamM. destruct (Nat.ltb_spec j q1) as [J|J].
  - rewrite app_nth1 by lia. destruct (Nat.ltb_spec i q1) as [I|I].
    + apply lsum_ext. intros e He. apply filter_In in He. destruct He as [He _].
      destruct (B1 (nth j M1 []) e) as [_ Q]; [apply nth_In; lia|exact He|]. apply app_nth1. lia.
    + rewrite filter_none; [reflexivity|]. intros e He. apply Nat.eqb_neq. destruct (B1 (nth j M1 []) e) as [Q _]; [apply nth_In; lia|exact He|]. lia.
  - rewrite app_nth2 by lia. rewrite L1. set (G := fun e : nat * Z => ((q1 + fst e)%nat, (snd e + Z.of_nat t1)%Z)).
    assert (N : nth (j - q1) (map (map G) M2) [] = map G (nth (j - q1) M2 [])) by exact (map_nth (map G) M2 [] (j - q1)).
    rewrite N, filter_map. destruct (Nat.ltb_spec i q1) as [I|I].
    + rewrite filter_none; [reflexivity|]. intros e _. unfold G. cbn [fst]. apply Nat.eqb_neq. lia.
    + rewrite lsum_map. unfold G. cbn [fst snd].
      rewrite (filter_ext (fun x : nat * Z => Nat.eqb (q1 + fst x) i) (fun e => Nat.eqb (fst e) (i - q1)))
        by (intros e; destruct (Nat.eqb_spec (q1 + fst e) i), (Nat.eqb_spec (fst e) (i - q1)); try reflexivity; lia).
      apply lsum_ext. intros e He. apply filter_In in He. destruct He as [He _].
      assert (Q : (1 <= snd e)%Z).
      { destruct (Nat.ltb_spec (j - q1) (length M2)) as [LJ|LJ]; [apply (B2 (nth (j - q1) M2 [])); [now apply nth_In|exact He]|].
        rewrite (nth_overflow M2) in He by exact LJ. destruct He. }
      rewrite app_nth2 by lia. f_equal. lia.
Qed.

Lemma rbind_entry (Z1 Z2 Zt : csc R) n j k : rbind Rnum Z1 Z2 = Ok Zt -> length (cs_cols Z1) = n ->
  (forall c e, In c (cs_cols Z1) -> In e c -> (fst e < cs_rows Z1)%nat) -> (k < n)%nat ->
  entry Zt j k = if (j <? cs_rows Z1)%nat then entry Z1 j k else entry Z2 (j - cs_rows Z1) k.
Proof.
  intros H L B K. destruct (rbind_inv Rnum Z1 Z2 Zt H) as [E EX]. rewrite EX. clear EX H.
  unfold entry. cbn [cs_cols]. set (q1 := cs_rows Z1) in *.
  set (G := fun cc : list (nat * R) * list (nat * R) => fst cc ++ map (fun e => ((q1 + fst e)%nat, snd e)) (snd cc)).
  assert (N : nth k (map G (combine (cs_cols Z1) (cs_cols Z2))) [] = nth k (cs_cols Z1) [] ++ map (fun e => ((q1 + fst e)%nat, snd e)) (nth k (cs_cols Z2) [])).
  { etransitivity; [exact (map_nth G _ ([], []) k)|]. rewrite combine_nth by exact E. reflexivity. }
  change (fold_right Rplus 0 (map snd (filter (fun e : nat * R => (fst e =? j)%nat) (nth k (map G (combine (cs_cols Z1) (cs_cols Z2))) []))) = 
    if (j <? q1)%nat then fold_right Rplus 0 (map snd (filter (fun e => (fst e =? j)%nat) (nth k (cs_cols Z1) []))) else fold_right Rplus 0 (map snd (filter (fun e => (fst e =? j - q1)%nat) (nth k (cs_cols Z2) [])))).
  rewrite N, filter_app, filter_map. cbn [fst]. destruct (Nat.ltb_spec j q1) as [J|J].
  - rewrite (filter_none (fun x : nat * R => (q1 + fst x =? j)%nat)) by (intros e _; apply Nat.eqb_neq; lia). cbn [map]. now rewrite app_nil_r.
  - rewrite (filter_none (fun e : nat * R => (fst e =? j)%nat)).
    + cbn [app]. rewrite map_map. cbn [snd]. rewrite (filter_ext (fun x : nat * R => (q1 + fst x =? j)%nat) (fun e => (fst e =? j - q1)%nat)); [reflexivity|].
      intros e. destruct (Nat.eqb_spec (q1 + fst e) j), (Nat.eqb_spec (fst e) (j - q1)); try reflexivity; lia.
    + intros e He. apply Nat.eqb_neq. specialize (B (nth k (cs_cols Z1) []) e). assert (fst e < q1)%nat; [|lia]. apply B; [apply nth_In; lia|exact He].
Qed.

Lemma part_app n r1 r2 r theta1 theta2 u1 u2 k : proper_re n r1 -> proper_re n r2 -> (k < n)%nat ->
  rbind Rnum (rt_Zt _ r1) (rt_Zt _ r2) = Ok (rt_Zt _ r) ->
  rt_Lind _ r = rt_Lind _ r1 ++ map (fun l => (l + Z.of_nat (length (rt_theta _ r1)))%Z) (rt_Lind _ r2) ->
  rt_Lambdat _ r = concatenate_Matrix Rnum (rt_Lambdat _ r1) (rt_Lambdat _ r2) ->
  length theta1 = length (rt_theta _ r1) -> length u1 = cs_rows (rt_Zt _ r1) -> length u2 = cs_rows (rt_Zt _ r2) ->
  part r (theta1 ++ theta2) (u1 ++ u2) k = part r1 theta1 u1 k + part r2 theta2 u2 k.
Proof.
  intros P1 P2 K HZ HLi HLa LT LU1 LU2. unfold part.
  assert (RQ : cs_rows (rt_Zt _ r) = (cs_rows (rt_Zt _ r1) + cs_rows (rt_Zt _ r2))%nat).
  { destruct (rbind_inv Rnum _ _ _ HZ) as [_ EX]. now rewrite EX. }
  assert (FI : filled r = filled r1 ++ map (map (fun e => ((cs_rows (rt_Zt _ r1) + fst e)%nat, (snd e + Z.of_nat (length (rt_theta _ r1)))%Z))) (filled r2)).
  { rewrite <- (filled_app r1 r2 (rt_Zt _ r) (rt_theta _ r) (rt_lower _ r) n P1 P2). unfold filled. cbn [rt_Lambdat rt_Lind]. now rewrite HLi, HLa. }
  set (q1 := cs_rows (rt_Zt _ r1)) in *. set (q2 := cs_rows (rt_Zt _ r2)) in *. set (t1 := length (rt_theta _ r1)) in *.
  assert (LM1 : length (filled r1) = q1) by (unfold filled; rewrite fill_x_length; exact (pr_Lcols _ _ P1)).
  assert (B1 : forall c e, In c (filled r1) -> In e c -> (fst e < q1)%nat /\ (1 <= snd e <= Z.of_nat t1)%Z).
  { intros c e Hc He. split; [exact (fill_x_rows _ q1 (pr_L _ _ P1) _ c e Hc He)|]. apply (pr_range _ _ P1). exact (fill_x_values _ _ c e Hc He). }
  assert (B2 : forall c e, In c (filled r2) -> In e c -> (1 <= snd e)%Z).
  { intros c e Hc He. apply (pr_range _ _ P2). exact (fill_x_values _ _ c e Hc He). }
  assert (LL : forall i j, LamM (filled r) (theta1 ++ theta2) i j =
     if (j <? q1)%nat then (if (i <? q1)%nat then LamM (filled r1) theta1 i j else 0) else if (i <? q1)%nat then 0 else LamM (filled r2) theta2 (i - q1) (j - q1)).
  { intros i j. rewrite FI. now apply LamM_app. }
  assert (EE : forall j, entry (rt_Zt _ r) j k = if (j <? q1)%nat then entry (rt_Zt _ r1) j k else entry (rt_Zt _ r2) (j - q1) k).
  { intros j. apply (rbind_entry _ _ _ n _ _ HZ (pr_cols _ _ P1) (pr_Zt _ _ P1) K). }
  rewrite app_length, sumR_add, RQ. f_equal; apply sumR_ext; intros i Hi.
  - rewrite app_nth1 by exact Hi. f_equal. rewrite sumR_add. rewrite (sumR_nil q2).
    + rewrite Rplus_0_r. apply sumR_ext. intros j Hj. rewrite LL, EE. destruct (Nat.ltb_spec j q1); [|lia]. destruct (Nat.ltb_spec i q1); [reflexivity|lia].
    + intros j Hj. rewrite LL. destruct (Nat.ltb_spec (q1 + j) q1); [lia|]. destruct (Nat.ltb_spec i q1); [ring|lia].
  - rewrite app_nth2 by lia. replace (length u1 + i - length u1)%nat with i by lia. f_equal. rewrite sumR_add. rewrite (sumR_nil q1).
    + rewrite Rplus_0_l. apply sumR_ext. intros j Hj. rewrite LL, EE. destruct (Nat.ltb_spec (q1 + j) q1); [lia|]. destruct (Nat.ltb_spec (length u1 + i) q1); [lia|].
      replace (q1 + j - q1)%nat with j by lia. replace (length u1 + i - q1)%nat with i by lia. reflexivity.
    + intros j Hj. rewrite LL. destruct (Nat.ltb_spec j q1); [|lia]. destruct (Nat.ltb_spec (length u1 + i) q1); [lia|ring].
Qed.

(** The combined frame is proper again. *)
Lemma proper_concat n m1 m2 : proper n m1 -> proper n m2 -> exists m, concatenate_frames Rnum m1 m2 = Ok m /\ proper n m /\
  mo_p _ m = (mo_p _ m1 + mo_p _ m2)%nat /\ ntheta m = (ntheta m1 + ntheta m2)%nat /\ nrandom m = (nrandom m1 + nrandom m2)%nat /\
  mo_response _ m = mo_response _ m1 /\ mo_weights _ m = mo_weights _ m1.
Proof.
  intros P1 P2. unfold concatenate_frames, cbind. rewrite (pr_X _ _ P1), (pr_X _ _ P2), Nat.eqb_refl. cbn [bind].
  assert (XL : length (map (fun rr : list R * list R => fst rr ++ snd rr) (combine (mo_X _ m1) (mo_X _ m2))) = n).
  { rewrite map_length, combine_length, (pr_X _ _ P1), (pr_X _ _ P2). apply Nat.min_id. }
  assert (XR : forall row, In row (map (fun rr : list R * list R => fst rr ++ snd rr) (combine (mo_X _ m1) (mo_X _ m2))) -> length row = (mo_p _ m1 + mo_p _ m2)%nat).
  { intros row Hr. apply in_map_iff in Hr. destruct Hr as [[a b] [<- Hab]]. cbn [fst snd]. etransitivity; [apply app_length|].
    exact (f_equal2 Nat.add (pr_row _ _ P1 a (in_combine_l _ _ _ _ Hab)) (pr_row _ _ P2 b (in_combine_r _ _ _ _ Hab))). }
  unfold ntheta, nrandom. destruct (mo_re _ m1) as [r1|] eqn:E1; destruct (mo_re _ m2) as [r2|] eqn:E2.
  - pose proof (pr_re _ _ P1 r1 E1) as Q1. pose proof (pr_re _ _ P2 r2 E2) as Q2. unfold rbind. rewrite (pr_cols _ _ Q1), (pr_cols _ _ Q2), Nat.eqb_refl. cbn [bind].
    eexists. split; [reflexivity|]. cbn [mo_p mo_re mo_response mo_weights rt_theta rt_Zt cs_rows]. rewrite app_length. split; [|repeat split; reflexivity].
    constructor; cbn [mo_X mo_p mo_re]; [exact XL|exact XR|].
    intros r [= <-].
    assert (C : concatenate_Matrix Rnum (rt_Lambdat _ r1) (rt_Lambdat _ r2) = mkCsc (cs_rows (rt_Lambdat _ r1) + cs_rows (rt_Lambdat _ r2)) (cs_cols (rt_Lambdat _ r1) ++ map (shift (cs_rows (rt_Lambdat _ r1))) (cs_cols (rt_Lambdat _ r2)))).
    { apply concatenate_Matrix_cols; [exact (pr_sorted _ _ Q1)|exact (pr_sorted _ _ Q2)| |].
      - exact (pr_L' n r1 Q1).
      - exact (pr_L' n r2 Q2). }
    rewrite C. constructor; cbn [rt_Zt rt_theta rt_Lind rt_Lambdat cs_rows cs_cols].
    + etransitivity; [apply map_length|]. etransitivity; [apply combine_length|]. exact (eq_trans (f_equal2 Nat.min (pr_cols _ _ Q1) (pr_cols _ _ Q2)) (Nat.min_id n)).
    + intros c e Hc He. apply in_map_iff in Hc. destruct Hc as [[a b] [<- Hab]]. cbn [fst snd] in He. apply in_app_iff in He. destruct He as [He|He].
      * eapply Nat.lt_le_trans; [exact (pr_Zt _ _ Q1 a e (in_combine_l _ _ _ _ Hab) He)|apply Nat.le_add_r].
      * apply in_map_iff in He. destruct He as [y [<- Hy]]. cbn [fst]. apply Nat.add_lt_mono_l. exact (pr_Zt _ _ Q2 b y (in_combine_r _ _ _ _ Hab) Hy).
    + exact (f_equal2 Nat.add (pr_Lrows _ _ Q1) (pr_Lrows _ _ Q2)).
    + etransitivity; [apply app_length|]. rewrite map_length. exact (f_equal2 Nat.add (pr_Lcols _ _ Q1) (pr_Lcols _ _ Q2)).
    + intros c Hc. apply in_app_iff in Hc. destruct Hc as [Hc|Hc]; [exact (pr_sorted _ _ Q1 c Hc)|]. apply in_map_iff in Hc. destruct Hc as [c' [<- Hc]].
      apply sorted_shift. exact (pr_sorted _ _ Q2 c' Hc).
    + intros c e Hc He. apply in_app_iff in Hc. destruct Hc as [Hc|Hc]; [eapply Nat.lt_le_trans; [exact (pr_L _ _ Q1 c e Hc He)|apply Nat.le_add_r]|]. apply in_map_iff in Hc. destruct Hc as [c' [<- Hc]].
      unfold shift in He. apply in_map_iff in He. destruct He as [y [<- Hy]]. cbn [fst]. eapply Nat.le_lt_trans; [exact (Nat.add_le_mono _ _ _ _ (Nat.eq_le_incl _ _ (pr_Lrows _ _ Q1)) (le_n (fst y)))|]. apply Nat.add_lt_mono_l. exact (pr_L _ _ Q2 c' y Hc Hy).
    + rewrite app_length, map_length, concat_app. etransitivity; [|symmetry; apply app_length]. etransitivity; [exact (f_equal2 Nat.add (pr_Lind _ _ Q1) (pr_Lind _ _ Q2))|]. f_equal.
      generalize (cs_cols (rt_Lambdat Rnum r2)). intros l. induction l as [|a l IH]; [reflexivity|]. cbn [map concat]. rewrite !app_length, IH. unfold shift. rewrite map_length. reflexivity.
    + intros l Hl. set (t1 := length (rt_theta Rnum r1)) in *. set (t2 := length (rt_theta Rnum r2)).
      assert (T : length (rt_theta Rnum r1 ++ rt_theta Rnum r2) = (t1 + t2)%nat) by apply app_length.
      match goal with |- (1 <= l <= Z.of_nat ?x)%Z => change (1 <= l <= Z.of_nat (length (rt_theta Rnum r1 ++ rt_theta Rnum r2)))%Z end. rewrite T.
      apply in_app_iff in Hl. destruct Hl as [Hl|Hl].
      * assert (1 <= l <= Z.of_nat t1)%Z by exact (pr_range _ _ Q1 l Hl). lia.
      * apply in_map_iff in Hl. destruct Hl as [y [<- Hy]]. assert (1 <= y <= Z.of_nat t2)%Z by exact (pr_range _ _ Q2 y Hy).
        match goal with |- (1 <= y + Z.of_nat ?x <= _)%Z => change (1 <= y + Z.of_nat t1 <= Z.of_nat (t1 + t2))%Z end. lia.
  - eexists. split; [reflexivity|]. cbn [mo_p mo_re mo_response mo_weights]. split; [|repeat split; lia]. constructor; cbn [mo_X mo_p mo_re]; [exact XL|exact XR|]. intros r [= <-]. exact (pr_re _ _ P1 r1 E1).
  - eexists. split; [reflexivity|]. cbn [mo_p mo_re mo_response mo_weights]. split; [|repeat split; lia]. constructor; cbn [mo_X mo_p mo_re]; [exact XL|exact XR|]. intros r [= <-]. exact (pr_re _ _ P2 r2 E2).
  - eexists. split; [reflexivity|]. cbn [mo_p mo_re mo_response mo_weights]. split; [|repeat split; lia]. constructor; cbn [mo_X mo_p mo_re]; [exact XL|exact XR|]. intros r [=].
Qed.

Lemma predictor_concat n m1 m2 m : proper n m1 -> proper n m2 -> concatenate_frames Rnum m1 m2 = Ok m ->
  forall beta1 beta2 theta1 theta2 u1 u2 k, length beta1 = mo_p _ m1 -> length theta1 = ntheta m1 -> length theta2 = ntheta m2 ->
  length u1 = nrandom m1 -> length u2 = nrandom m2 -> (k < n)%nat ->
  predictor m (beta1 ++ beta2) (theta1 ++ theta2) (u1 ++ u2) k = predictor m1 beta1 theta1 u1 k + predictor m2 beta2 theta2 u2 k.
Proof.
  intros P1 P2 H beta1 beta2 theta1 theta2 u1 u2 k LB LT1 LT2 LU1 LU2 K.
  destruct (proper_concat n m1 m2 P1 P2) as [m' [H' [P _]]]. rewrite H in H'. injection H' as <-.
  unfold concatenate_frames in H. apply bindOk in H. destruct H as [X [HX H]]. apply bindOk in H. destruct H as [re [HR H]]. injection H as <-.
  unfold ntheta, nrandom in *. unfold predictor. cbn [mo_re mo_X].
  pose proof (cbind_at _ _ X (mo_p _ m1) k beta1 beta2 HX (pr_row _ _ P1) (Nat.lt_le_trans _ _ _ K (Nat.eq_le_incl _ _ (eq_sym (pr_X _ _ P1)))) LB) as FX.
  destruct (mo_re _ m1) as [r1|] eqn:E1; destruct (mo_re _ m2) as [r2|] eqn:E2.
  - pose proof (pr_re _ _ P1 r1 E1) as Q1. pose proof (pr_re _ _ P2 r2 E2) as Q2.
    apply bindOk in HR. destruct HR as [Zt [HZ HR]]. injection HR as <-. rewrite (eta_part _ _ n) by (try exact K; apply (pr_re _ _ P); reflexivity).
    rewrite (eta_part m1 r1 n), (eta_part m2 r2 n) by assumption. cbn [mo_X]. rewrite FX.
    match goal with |- _ + part ?r _ _ _ = _ => pose proof (part_app n r1 r2 r theta1 theta2 u1 u2 k Q1 Q2 K HZ eq_refl eq_refl LT1 LU1 LU2) as PA end.
    rewrite PA. ring.
  - injection HR as <-. destruct theta2; [|discriminate LT2]. destruct u2; [|discriminate LU2]. rewrite !app_nil_r.
    rewrite (eta_part _ _ n) by (try exact K; apply (pr_re _ _ P); reflexivity). rewrite (eta_part m1 r1 n) by (try exact K; exact (pr_re _ _ P1 r1 E1)).
    cbn [mo_X]. rewrite FX. ring.
  - injection HR as <-. destruct theta1; [|discriminate LT1]. destruct u1; [|discriminate LU1]. cbn [app].
    rewrite (eta_part _ _ n) by (try exact K; apply (pr_re _ _ P); reflexivity). rewrite (eta_part m2 r2 n) by (try exact K; exact (pr_re _ _ P2 r2 E2)).
    cbn [mo_X]. rewrite FX. ring.
  - injection HR as <-. exact FX.
Qed.

Theorem C42_sum_main n m1 m2 : proper n m1 -> proper n m2 ->
  exists m, concatenate_frames Rnum m1 m2 = Ok m /\ proper n m /\
  mo_p _ m = (mo_p _ m1 + mo_p _ m2)%nat /\ ntheta m = (ntheta m1 + ntheta m2)%nat /\ nrandom m = (nrandom m1 + nrandom m2)%nat /\
  mo_response _ m = mo_response _ m1 /\ mo_weights _ m = mo_weights _ m1 /\
  forall beta1 beta2 theta1 theta2 u1 u2 k, length beta1 = mo_p _ m1 -> length theta1 = ntheta m1 -> length theta2 = ntheta m2 ->
    length u1 = nrandom m1 -> length u2 = nrandom m2 -> (k < n)%nat ->
    predictor m (beta1 ++ beta2) (theta1 ++ theta2) (u1 ++ u2) k = predictor m1 beta1 theta1 u1 k + predictor m2 beta2 theta2 u2 k.
Proof.
  intros P1 P2. destruct (proper_concat n m1 m2 P1 P2) as [m [H [P [A [B [C [D E]]]]]]]. exists m.
  split; [exact H|]. split; [exact P|]. repeat (split; [assumption|]). now apply predictor_concat.
Qed.

Lemma fold_concat n : forall (ms : list (modfr Rnum)) m0, proper n m0 -> List.Forall (proper n) ms ->
  exists m, foldM (fun acc x => concatenate_frames Rnum acc x) ms m0 = Ok m /\ proper n m /\
  mo_p _ m = fold_right (fun x s => (mo_p _ x + s)%nat) 0%nat (m0 :: ms) /\ ntheta m = fold_right (fun x s => (ntheta x + s)%nat) 0%nat (m0 :: ms) /\ nrandom m = fold_right (fun x s => (nrandom x + s)%nat) 0%nat (m0 :: ms) /\
  mo_response _ m = mo_response _ m0 /\ mo_weights _ m = mo_weights _ m0 /\
  forall pars k, (k < n)%nat -> Forall2 (fun x p => length (fst (fst p)) = mo_p _ x /\ length (snd (fst p)) = ntheta x /\ length (snd p) = nrandom x) (m0 :: ms) pars ->
    predictor m (concat (map (fun p => fst (fst p)) pars)) (concat (map (fun p => snd (fst p)) pars)) (concat (map snd pars)) k =
    fold_right Rplus 0 (map (fun xp => predictor (fst xp) (fst (fst (snd xp))) (snd (fst (snd xp))) (snd (snd xp)) k) (combine (m0 :: ms) pars)).
Proof.
  induction ms as [|m1 ms IH]; intros m0 P0 PS.
  - exists m0. cbn [foldM fold_right]. split; [reflexivity|]. split; [exact P0|]. repeat (split; [lia|]). repeat (split; [reflexivity|]).
    intros pars k K F. inversion F as [|? p ? ps Hp F']; subst. inversion F'; subst. cbn [map concat combine fold_right fst snd]. rewrite !app_nil_r. ring.
  - inversion PS as [|? ? P1 PS']; subst. destruct (C42_sum_main n m0 m1 P0 P1) as [m01 [H [P [A [B [C [D [E G]]]]]]]].
    cbn [foldM]. rewrite H. cbn [bind]. destruct (IH m01 P PS') as [m [H2 [P' [A' [B' [C' [D' [E' G']]]]]]]].
    exists m. split; [exact H2|]. split; [exact P'|]. cbn [fold_right] in *. rewrite A', B', C', A, B, C. repeat (split; [lia|]). split; [congruence|]. split; [congruence|].
    intros pars k K F. inversion F as [|? p0 ? ps0 [L0 [T0 U0]] F0]; subst. inversion F0 as [|? p1 ? ps [L1 [T1 U1]] F1]; subst.
    specialize (G' ((fst (fst p0) ++ fst (fst p1), snd (fst p0) ++ snd (fst p1), snd p0 ++ snd p1) :: ps) k K).
    cbn [map concat combine fold_right fst snd] in *. rewrite !app_assoc. rewrite G'.
    + rewrite (G (fst (fst p0)) (fst (fst p1)) (snd (fst p0)) (snd (fst p1)) (snd p0) (snd p1) k) by assumption. ring.
    + constructor; [|exact F1]. cbn [fst snd]. rewrite !app_length. lia.
Qed.

Theorem C42_attach_main n m0 subs : proper n m0 -> subs <> [] -> List.Forall (proper n) subs ->
  exists m, attach_subframes Rnum m0 subs = Ok m /\ proper n m /\ mo_response _ m = mo_response _ m0 /\ mo_weights _ m = mo_weights _ m0 /\
  forall pars k, (k < n)%nat -> Forall2 (fun x p => length (fst (fst p)) = mo_p _ x /\ length (snd (fst p)) = ntheta x /\ length (snd p) = nrandom x) (m0 :: subs) pars ->
    predictor m (concat (map (fun p => fst (fst p)) pars)) (concat (map (fun p => snd (fst p)) pars)) (concat (map snd pars)) k =
    fold_right Rplus 0 (map (fun xp => predictor (fst xp) (fst (fst (snd xp))) (snd (fst (snd xp))) (snd (snd xp)) k) (combine (m0 :: subs) pars)).
Proof.
  intros P0 NE PS. destruct subs as [|s ss]; [easy|]. inversion PS as [|? ? Ps PS']; subst. unfold attach_subframes.
  destruct (fold_concat n ss s Ps PS') as [c [Hc [Pc [A [B [C [_ [_ G]]]]]]]]. rewrite Hc. cbn [bind].
  destruct (C42_sum_main n m0 c P0 Pc) as [m [H [P [A' [B' [C' [D' [E' G']]]]]]]]. exists m. split; [exact H|]. split; [exact P|]. split; [exact D'|]. split; [exact E'|].
  intros pars k K F. inversion F as [|? p0 ? ps [L0 [T0 U0]] F0]; subst. specialize (G ps k K F0). cbn [map concat combine fold_right fst snd].
  assert (LS : length (concat (map (fun p : list R * list R * list R => snd (fst p)) ps)) = ntheta c /\ length (concat (map (fun p : list R * list R * list R => snd p) ps)) = nrandom c).
  { rewrite B, C. clear -F0. induction F0 as [|x p xs ps [_ [T U]] F0 [IH1 IH2]]; [split; reflexivity|]. cbn [map concat fold_right]. rewrite !app_length. lia. }
  rewrite G' by (try assumption; apply LS). f_equal. exact G.
Qed.
