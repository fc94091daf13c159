(** Importance sampling: the integrand, the weights and the estimate. *)
From Coq Require Import List Reals ZArith Bool Arith Lia Lra.
From Coquelicot Require Import Coquelicot.
From Verif Require Import Model.Base Model.Family Model.GLMM Model.SplitFrame Model.Frames Model.Vectors Model.IS Spec.Numbers Spec.GLMMSpec Spec.SplitSpec Spec.FramesSpec Spec.ISSpec
  Proofs.ListLemmas Proofs.FamilyLemmas Proofs.GLMMLemmas Proofs.SumLemmas Proofs.SplitLemmas Proofs.SplitMain Proofs.ConcatMain Proofs.AttachMain Proofs.LineIntegral Proofs.ISLinear.
From Verif Require Spec.MatrixSpec Spec.LaplaceSpec.
Import ListNotations.
Local Open Scope R_scope.

(** Subscripts. *)
Lemma filter_id {A} (f : A -> bool) l : forallb f l = true -> filter f l = l.
Proof. induction l as [|x l IH]; [reflexivity|]. cbn. intros H. apply andb_true_iff in H. destruct H as [-> H]. now rewrite IH. Qed.
Lemma known_some {A} (x : list A) : known (map Some x) = Ok x.
Proof. unfold known. induction x as [|a x IH]; cbn [map mapM]; [reflexivity|]. cbn [bind]. rewrite IH. reflexivity. Qed.
Lemma elements_seq {A} (x : list A) k l : (k + l <= length x)%nat -> elements x (seq (S k) l) = map Some (firstn l (skipn k x)).
Proof.
  intros H. unfold elements. assert (F : filter (fun i => negb (Nat.eqb i 0)) (seq (S k) l) = seq (S k) l).
  { apply filter_id. apply forallb_forall. intros i Hi. apply in_seq in Hi. destruct (Nat.eqb_spec i 0); [lia|reflexivity]. }
  rewrite F. clear F. revert k x H. induction l as [|l IH]; intros k x H; [reflexivity|]. cbn [seq map]. replace (S k - 1)%nat with k by lia.
  rewrite IH by lia. revert x H. induction k as [|k IHk]; intros [|a x] H; cbn [length] in H; try lia; [reflexivity|]. cbn [nth_error skipn]. apply IHk. lia.
Qed.

Lemma find_XBeta_eq theta beta m r : length theta = length (rt_theta _ r) -> length beta = mo_p _ m ->
  find_XBeta (theta ++ beta) m r = Ok (match beta with [] => [] | _ => mvmul (mo_X _ m) beta end).
Proof.
  intros LT LB. unfold find_XBeta. set (nr := length (rt_theta Rnum r)) in *. unfold colon. destruct beta as [|b beta].
  - cbn [length] in LB. rewrite <- LB. replace (nr + 1 <=? nr + 0)%nat with false by (symmetry; apply Nat.leb_gt; lia).
    replace (nr + 1 - (nr + 0))%nat with 1%nat by lia. cbn [seq rev app]. unfold elements, matrix_times_vector. cbn [filter].
    replace (negb (S (nr + 0) =? 0)%nat) with true by reflexivity. reflexivity.
  - replace (nr + 1 <=? nr + mo_p _ m)%nat with true by (symmetry; apply Nat.leb_le; rewrite <- LB; cbn [length]; lia).
    replace (S (nr + mo_p _ m - (nr + 1))) with (length (b :: beta)) by (rewrite LB; rewrite <- LB; cbn [length]; lia).
    replace (nr + 1)%nat with (S nr) by lia. rewrite elements_seq by (rewrite app_length; lia).
    assert (E : firstn (length (b :: beta)) (skipn nr (theta ++ b :: beta)) = b :: beta).
    { rewrite skipn_app, skipn_all2 by lia. rewrite LT, Nat.sub_diag. cbn [app skipn]. apply firstn_all. }
    rewrite E. unfold matrix_times_vector. rewrite map_length, LB, Nat.eqb_refl, known_some. reflexivity.
Qed.

(** Lambdat(theta) Zt *)
Lemma fill_x_map {A B C} (h : B -> C) (cols : list (list (nat * A))) : forall x, fill_x cols (map h x) = map (map (fun e => (fst e, h (snd e)))) (fill_x cols x).
Proof.
  induction cols as [|c cols IH]; intros x; cbn [fill_x map]; [reflexivity|]. rewrite firstn_map, skipn_map, IH. f_equal.
  generalize (firstn (length c) x). intros y. revert y. induction c as [|a c IHc]; intros [|b y]; cbn; try reflexivity. f_equal. apply IHc.
Qed.

Lemma nsum_R (l : list R) : nsum Rnum l = fold_right Rplus 0 l.
Proof. unfold nsum. cbn. rewrite <- fold_symmetric; [reflexivity| |]; intros; ring. Qed.

Lemma dense_at (m : csc R) i j : (i < cs_rows m)%nat -> (j < length (cs_cols m))%nat -> at2 (dense m) i j = entry m i j.
Proof.
  intros Hi Hj. unfold at2, dense. rewrite nth_map_seq by exact Hi. rewrite (nth_map' _ _ j 0 []) by exact Hj. apply nsum_R.
Qed.
Lemma dense_row (m : csc R) i : (i < cs_rows m)%nat -> length (nth i (dense m) []) = length (cs_cols m).
Proof. intros Hi. unfold dense. rewrite nth_map_seq by exact Hi. apply map_length. Qed.
Lemma dense_length m : length (dense m) = cs_rows m. Proof. unfold dense. now rewrite map_length, seq_length. Qed.

Lemma column_nth j m i : (i < length m)%nat -> nth i (column j m) 0 = at2 m i j.
Proof. intros H. unfold column, at2. now rewrite (nth_map' _ _ i 0 []) by exact H. Qed.
Lemma column_length j m : length (column j m) = length m. Proof. apply map_length. Qed.

Lemma mmul_at cols A B i j d : (i < length A)%nat -> (j < cols)%nat -> length (nth i A []) = d -> length B = d ->
  at2 (mmul cols A B) i j = sumR d (fun k => at2 A i k * at2 B k j).
Proof.
  intros Hi Hj LA LB. unfold mmul. unfold at2 at 1. rewrite (nth_map' _ _ i [] []) by exact Hi.
  unfold transpose. rewrite map_map. rewrite nth_map_seq by exact Hj. rewrite (vdot_sum _ _ d) by (rewrite ?column_length; assumption).
  apply sumR_ext. intros k Hk. rewrite column_nth by lia. reflexivity.
Qed.
Lemma mmul_length cols A B : length (mmul cols A B) = length A. Proof. apply map_length. Qed.
Lemma mmul_row cols A B i : (i < length A)%nat -> length (nth i (mmul cols A B) []) = cols.
Proof. intros H. unfold mmul. rewrite (nth_map' _ _ i [] []) by exact H. unfold transpose. now rewrite !map_length, seq_length. Qed.

Lemma transpose_length c m : length (transpose c m) = c. Proof. unfold transpose. now rewrite map_length, seq_length. Qed.
Lemma transpose_at c m i j : (i < c)%nat -> (j < length m)%nat -> at2 (transpose c m) i j = at2 m j i.
Proof. intros Hi Hj. unfold at2 at 1, transpose. rewrite nth_map_seq by exact Hi. now apply column_nth. Qed.
Lemma transpose_row c m i : (i < c)%nat -> length (nth i (transpose c m) []) = length m.
Proof. intros Hi. unfold transpose. rewrite nth_map_seq by exact Hi. apply map_length. Qed.

Lemma slot_len {A} (cs : list (list (nat * A))) : length (concat (map (map snd) cs)) = length (concat cs).
Proof. induction cs as [|c cs IH]; [reflexivity|]. cbn [map concat]. rewrite !app_length, IH, map_length. reflexivity. Qed.

Lemma find_LZ n m r theta beta : proper n m -> mo_re _ m = Some r -> (0 < ntheta m)%nat -> length theta = ntheta m ->
  exists L, find_LambdatThetaZt (theta ++ beta) r = Ok L /\ length L = nrandom m /\
  forall i k, (i < nrandom m)%nat -> (k < n)%nat -> at2 L i k = LZ (whole (frame_of m r)) theta i k.
Proof.
  intros P E NT LT. pose proof (pr_re _ _ P r E) as Q. unfold ntheta, nrandom in *. rewrite E in *. unfold find_LambdatThetaZt.
  unfold colon. replace (1 <=? length (rt_theta Rnum r))%nat with true by (symmetry; apply Nat.leb_le; lia).
  replace (S (length (rt_theta Rnum r) - 1)) with (length (rt_theta Rnum r)) by lia. rewrite <- LT.
  rewrite (elements_seq (theta ++ beta) 0) by (rewrite app_length; lia). cbn [skipn]. rewrite firstn_app, firstn_all, Nat.sub_diag. cbn [firstn]. rewrite app_nil_r, known_some. cbn [bind].
  set (h := fun l : Z => nth (Z.to_nat (l - 1)) theta 0).
  assert (EX : elements theta (map Z.to_nat (rt_Lind _ r)) = map Some (map h (rt_Lind _ r))).
  { unfold elements. rewrite filter_id.
    - rewrite !map_map. apply map_ext_in. intros l Hl. pose proof (pr_range _ _ Q l Hl) as B. unfold h.
      rewrite (nth_error_nth' theta 0) by (rewrite LT; lia). f_equal. f_equal. lia.
    - apply forallb_forall. intros k Hk. apply in_map_iff in Hk. destruct Hk as [l [<- Hl]]. pose proof (pr_range _ _ Q l Hl). destruct (Nat.eqb_spec (Z.to_nat l) 0); [lia|reflexivity]. }
  rewrite EX, known_some. cbn [bind]. unfold set_x. rewrite map_length.
  assert (SL : length (slot_x (rt_Lambdat _ r)) = length (rt_Lind _ r)).
  { rewrite (pr_Lind _ _ Q). unfold slot_x. apply slot_len. }
  rewrite SL, Nat.eqb_refl. cbn [bind]. eexists. split; [reflexivity|]. rewrite mmul_length, dense_length. cbn [cs_rows].
  split; [exact (pr_Lrows _ _ Q)|]. intros i k Hi Hk.
  rewrite (mmul_at _ _ _ i k (cs_rows (rt_Zt _ r))).
  - rewrite (LZ_filled m r n) by assumption. apply sumR_ext. intros j Hj. f_equal.
    + rewrite dense_at; cbn [cs_rows cs_cols].
      * rewrite fill_x_map. unfold LamM, entry. cbn [cs_cols]. fold (filled r). set (G := fun e : nat * Z => (fst e, h (snd e))).
        assert (NG : nth j (map (map G) (filled r)) [] = map G (nth j (filled r) [])) by exact (map_nth (map G) (filled r) [] j).
        rewrite NG, filter_map. rewrite map_map. reflexivity.
      * rewrite (pr_Lrows _ _ Q). exact Hi.
      * rewrite fill_x_length. exact (Nat.lt_le_trans _ _ _ Hj (Nat.eq_le_incl _ _ (eq_sym (pr_Lcols _ _ Q)))).
    + apply dense_at; [exact Hj|]. exact (Nat.lt_le_trans _ _ _ Hk (Nat.eq_le_incl _ _ (eq_sym (pr_cols _ _ Q)))).
  - rewrite dense_length. cbn [cs_rows]. rewrite (pr_Lrows _ _ Q). exact Hi.
  - exact (Nat.lt_le_trans _ _ _ Hk (Nat.eq_le_incl _ _ (eq_sym (pr_cols _ _ Q)))).
  - rewrite dense_row by (cbn [cs_rows]; rewrite (pr_Lrows _ _ Q); exact Hi). cbn [cs_cols]. rewrite fill_x_length. exact (pr_Lcols _ _ Q).
  - apply dense_length.
Qed.

(** Long vectors made of pieces of the same length. *)
Lemma nth_concat {A} r (d : A) : forall (L : list (list A)) k i, (forall c, In c L -> length c = r) -> (k < length L)%nat -> (i < r)%nat ->
  nth (k * r + i) (concat L) d = nth i (nth k L []) d.
Proof.
  induction L as [|c L IH]; intros k i H Hk Hi; [cbn in Hk; lia|]. cbn [concat]. assert (Lc : length c = r) by (apply H; now left). destruct k as [|k].
  - cbn [Nat.mul Nat.add nth]. apply app_nth1. lia.
  - rewrite app_nth2 by lia. rewrite Lc. replace (S k * r + i - r)%nat with (k * r + i)%nat by lia. cbn [nth]. apply IH; [intros c' Hc; apply H; now right|cbn in Hk; lia|exact Hi].
Qed.
Lemma concat_length {A} r : forall (L : list (list A)), (forall c, In c L -> length c = r) -> length (concat L) = (length L * r)%nat.
Proof. induction L as [|c L IH]; intros H; [reflexivity|]. cbn [concat]. rewrite app_length, (H c (or_introl eq_refl)), IH by (intros; apply H; now right). reflexivity. Qed.
Lemma rep_each_length {A} (x : list A) r : length (rep_each x r) = (length x * r)%nat.
Proof. unfold rep_each. rewrite (concat_length r); [now rewrite map_length|]. intros c Hc. apply in_map_iff in Hc. destruct Hc as [a [<- _]]. apply repeat_length. Qed.
Lemma rep_each_nth (x : list R) r k i : (k < length x)%nat -> (i < r)%nat -> nth (k * r + i) (rep_each x r) 0 = nth k x 0.
Proof.
  intros Hk Hi. unfold rep_each. rewrite nth_concat; [|intros c Hc; apply in_map_iff in Hc; destruct Hc as [a [<- _]]; apply repeat_length|now rewrite map_length|exact Hi].
  rewrite (nth_map' _ _ k [] 0) by exact Hk. clear -Hi. revert i Hi. induction r as [|r IH]; intros [|i] Hi; cbn; try lia; [reflexivity|]. apply IH. lia.
Qed.
Lemma as_numeric_nth c m k i : (k < c)%nat -> (i < length m)%nat -> nth (k * length m + i) (as_numeric c m) 0 = at2 m i k.
Proof.
  intros Hk Hi. unfold as_numeric. rewrite nth_concat.
  - unfold transpose. rewrite nth_map_seq by exact Hk. now apply column_nth.
  - intros x Hx. unfold transpose in Hx. apply in_map_iff in Hx. destruct Hx as [a [<- _]]. apply column_length.
  - now rewrite transpose_length.
  - exact Hi.
Qed.
Lemma as_numeric_length c m : length (as_numeric c m) = (c * length m)%nat.
Proof. unfold as_numeric. rewrite (concat_length (length m)); [now rewrite transpose_length|]. intros x Hx. unfold transpose in Hx. apply in_map_iff in Hx. destruct Hx as [a [<- _]]. apply column_length. Qed.

Lemma vadd_nth a b t : length a = length b -> nth t (vadd a b) 0 = nth t a 0 + nth t b 0.
Proof.
  unfold vadd, map2. revert b t. induction a as [|x a IH]; intros [|y b] [|t] H; try discriminate H; cbn; try ring. apply IH. now injection H.
Qed.
Lemma vadd_len a b : length a = length b -> length (vadd a b) = length a.
Proof. intros H. unfold vadd, map2. rewrite map_length, combine_length. lia. Qed.

Lemma draw_nth u j i : nth i (draw u j) 0 = at2 u i j.
Proof. unfold draw, at2. revert i. induction u as [|row u IH]; intros [|i]; cbn; try reflexivity; [now destruct j| now destruct j|]. apply IH. Qed.
Lemma draw_length u j : length (draw u j) = length u. Proof. apply map_length. Qed.

Lemma find_eta_nth n m r theta beta u R0 k i : proper n m -> mo_re _ m = Some r -> (0 < ntheta m)%nat -> length theta = ntheta m -> length beta = mo_p _ m ->
  sized (nrandom m) R0 u -> (k < n)%nat -> (i < R0)%nat ->
  forall XB L, find_XBeta (theta ++ beta) m r = Ok XB -> find_LambdatThetaZt (theta ++ beta) r = Ok L ->
  nth (k * R0 + i) (find_eta n R0 u XB L) 0 = predictor m beta theta (draw u i) k /\ length (find_eta n R0 u XB L) = (n * R0)%nat.
Proof.
  intros P E NT LT LB [US UR] Hk Hi XB L HX HL.
  assert (LT' : length theta = length (rt_theta _ r)) by (rewrite LT; unfold ntheta; now rewrite E).
  rewrite (find_XBeta_eq theta beta m r LT' LB) in HX. injection HX as <-.
  destruct (find_LZ n m r theta beta P E NT LT) as [L' [HL' [LL LV]]]. rewrite HL in HL'. injection HL' as <-.
  unfold predictor. rewrite E. unfold eta. cbn [whole frame_of gd_X fr_X].
  set (cp := crossprod R0 n u L).
  assert (CL : length cp = R0) by (unfold cp, crossprod; rewrite mmul_length; apply transpose_length).
  assert (CN : nth (k * R0 + i) (as_numeric n cp) 0 = sumR (length (draw u i)) (fun r0 => LZ (whole (frame_of m r)) theta r0 k * nth r0 (draw u i) 0)).
  { rewrite <- CL at 1. rewrite as_numeric_nth by (rewrite ?CL; assumption). unfold cp, crossprod.
    rewrite (mmul_at _ _ _ i k (length u)); [|now rewrite transpose_length|exact Hk|now rewrite transpose_row|now rewrite LL, US].
    rewrite draw_length. apply sumR_ext. intros a Ha. rewrite transpose_at by assumption. rewrite LV by (rewrite ?US in Ha; assumption). rewrite draw_nth. ring. }
  assert (AL : length (as_numeric n cp) = (n * R0)%nat) by (rewrite as_numeric_length, CL; reflexivity).
  unfold find_eta. fold cp. destruct beta as [|b beta].
  - rewrite CN. split; [cbn [length]; unfold sumR at 2; cbn; ring|exact AL].
  - assert (XL : length (mvmul (mo_X _ m) (b :: beta)) = n) by (rewrite mvmul_length; exact (pr_X _ _ P)).
    assert (XN : nth k (mvmul (mo_X _ m) (b :: beta)) 0 = sumR (length (b :: beta)) (fun j => at2 (mo_X _ m) k j * nth j (b :: beta) 0)).
    { unfold mvmul. rewrite (nth_map' _ _ k 0 []) by exact (Nat.lt_le_trans _ _ _ Hk (Nat.eq_le_incl _ _ (eq_sym (pr_X _ _ P)))).
      apply vdot_sum; [|reflexivity]. rewrite LB. apply (pr_row _ _ P). apply nth_In. exact (Nat.lt_le_trans _ _ _ Hk (Nat.eq_le_incl _ _ (eq_sym (pr_X _ _ P)))). }
    destruct (mvmul (mo_X Rnum m) (b :: beta)) as [|x xs] eqn:EM; [cbn in XL; lia|].
    assert (RL : length (rep_each (x :: xs) R0) = length (as_numeric n cp)) by (rewrite rep_each_length, XL; now rewrite AL).
    rewrite vadd_nth, vadd_len by exact RL. rewrite rep_each_nth by (rewrite ?XL; assumption). rewrite CN, XN. split; [reflexivity|now rewrite RL].
Qed.

Lemma log_dnorm_phi x : log_dnorm x = ln (phi x).
Proof.
  unfold log_dnorm, phi. assert (0 < sqrt (2 * PI)) by (apply sqrt_lt_R0; pose proof PI_RGT_0; lra). rewrite ln_div by (try exact H; apply exp_pos). rewrite ln_exp. lra.
Qed.
Lemma sum_log_dnorm z : fold_right Rplus 0 (map log_dnorm z) = ln (std_normal z).
Proof.
  induction z as [|x z IH]; [cbn; now rewrite ln_1|]. unfold std_normal. cbn [map fold_right]. rewrite IH, log_dnorm_phi. fold (std_normal z).
  rewrite ln_mult; [reflexivity|apply phi_pos|apply std_normal_pos].
Qed.

(** The weights in use. *)
Definition weights_of (n : nat) (m : modfr Rnum) : list R := match mo_weights _ m with Some w => w | None => repeat 1 n end.

Theorem integrand_main fam n m r y theta beta u R0 : proper n m -> mo_re _ m = Some r -> (0 < n)%nat -> (0 < ntheta m)%nat ->
  length theta = ntheta m -> length beta = mo_p _ m -> mo_response _ m = Numeric Rnum y -> length y = n -> length (weights_of n m) = n ->
  (0 < R0)%nat -> sized (nrandom m) R0 u ->
  find_log_integrand fam (theta ++ beta) m r R0 u =
  Ok (map (fun j => log_joint n (linkinv fam) (dev_resids fam) m y (weights_of n m) beta theta (draw u j)) (seq 0 R0)).
Proof.
  intros P E N0 NT LT LB HY LY LW R1 SU. unfold find_log_integrand. rewrite HY. cbn [bind].
  assert (LT' : length theta = length (rt_theta _ r)) by (rewrite LT; unfold ntheta; now rewrite E).
  destruct (find_XBeta (theta ++ beta) m r) as [XB| | |] eqn:HX; try (rewrite (find_XBeta_eq theta beta m r LT' LB) in HX; discriminate HX).
  destruct (find_LZ n m r theta beta P E NT LT) as [L [HL _]]. rewrite HL. cbn [bind].
  assert (EN : length (cs_cols (rt_Zt Rnum r)) = n) by exact (pr_cols _ _ (pr_re _ _ P r E)).
  rewrite EN.
  assert (WE : match mo_weights Rnum m with Some (w :: ws) => w :: ws | _ => repeat 1 (length y) end = weights_of n m).
  { unfold weights_of in *. destruct (mo_weights _ m) as [[|w ws]|]; [cbn in LW; lia|reflexivity|now rewrite LY]. }
  rewrite WE. set (W := weights_of n m) in *. set (et := find_eta n R0 u XB L).
  assert (EL : length et = (n * R0)%nat) by exact (proj2 (find_eta_nth n m r theta beta u R0 0 0 P E NT LT LB SU N0 R1 XB L HX HL)).
  destruct (zip3_spec (dev_resids fam) (rep_each y R0) (map (linkinv fam) et) (rep_each W R0)) as [dv [HD [DL DN]]].
  { rewrite map_length, EL. etransitivity; [apply rep_each_length|]. exact (f_equal (fun a => (a * R0)%nat) LY). }
  { etransitivity; [apply rep_each_length|]. etransitivity; [|symmetry; apply rep_each_length]. exact (f_equal (fun a => (a * R0)%nat) (eq_trans LY (eq_sym LW))). }
  rewrite HD. cbn [bind]. f_equal.
  assert (YL : length (rep_each y R0) = (n * R0)%nat) by (etransitivity; [apply rep_each_length|]; exact (f_equal (fun a => (a * R0)%nat) LY)).
  assert (DL' : length dv = (n * R0)%nat) by exact (eq_trans DL YL).
  assert (DN' : forall t, (t < n * R0)%nat -> nth t dv 0 = dev_resids fam (nth t (rep_each y R0) 0) (nth t (map (linkinv fam) et) 0) (nth t (rep_each W R0) 0)).
  { intros t Ht. apply DN. exact (Nat.lt_le_trans _ _ _ Ht (Nat.eq_le_incl _ _ (eq_sym YL))). }
  clear DL DN YL.
  assert (AM : map (fun row => fold_right Rplus 0 row) (as_matrix dv R0) =
    map (fun i => sumR n (fun k => dev_resids fam (nth k y 0) (linkinv fam (predictor m beta theta (draw u i) k)) (nth k W 0))) (seq 0 R0)).
  { unfold as_matrix. rewrite map_map, DL', Nat.div_mul by lia. apply map_ext_in. intros i Hi. apply in_seq in Hi. unfold sumR. f_equal. apply map_ext_in. intros k Hk. apply in_seq in Hk.
    assert (HT : (k * R0 + i < n * R0)%nat).
    { apply Nat.lt_le_trans with (S k * R0)%nat; [cbn; lia|]. apply Nat.mul_le_mono_r. lia. }
    rewrite DN' by exact HT. 
    assert (Kn : (k < n)%nat) by lia.
    assert (Y1 : nth (k * R0 + i) (rep_each y R0) 0 = nth k y 0) by (apply rep_each_nth; [exact (Nat.lt_le_trans _ _ _ Kn (Nat.eq_le_incl _ _ (eq_sym LY)))|lia]).
    assert (W1 : nth (k * R0 + i) (rep_each W R0) 0 = nth k W 0) by (apply rep_each_nth; [exact (Nat.lt_le_trans _ _ _ Kn (Nat.eq_le_incl _ _ (eq_sym LW)))|lia]).
    rewrite Y1, W1.
    rewrite (nth_map' (linkinv fam) et _ 0 0) by (rewrite EL; exact HT). unfold et.
    rewrite (proj1 (find_eta_nth n m r theta beta u R0 k i P E NT LT LB SU ltac:(lia) ltac:(lia) XB L HX HL)). reflexivity. }
  rewrite AM. rewrite map_map. apply (nth_ext _ _ 0 0).
  - rewrite vadd_len; rewrite !map_length; reflexivity.
  - rewrite vadd_len by (rewrite !map_length; reflexivity). rewrite map_length, seq_length. intros i Hi. rewrite vadd_nth by (rewrite !map_length; reflexivity).
    rewrite !nth_map_seq by exact Hi. unfold log_joint. f_equal. change (column i u) with (draw u i). apply sum_log_dnorm.
Qed.
