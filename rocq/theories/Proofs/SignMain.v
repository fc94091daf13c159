(** The signs of the parameters of a diagonal Lambda. *)
From Coq Require Import List Reals ZArith Bool Arith Sorted Lia Lra.
From Coquelicot Require Import Coquelicot.
From Verif Require Import Model.Base Model.Family Model.GLMM Model.SplitFrame Model.Frames Spec.Numbers Spec.GLMMSpec Spec.SplitSpec Spec.FramesSpec
  Proofs.ListLemmas Proofs.GLMMLemmas Proofs.GLMMMain Proofs.SumLemmas Proofs.SplitLemmas Proofs.SplitMain Proofs.ConcatMain Proofs.AttachMain.
Import ListNotations.
Local Open Scope R_scope.

Lemma combine_split {A B} (a b : list A) : forall (x : list B), combine (a ++ b) x = combine a (firstn (length a) x) ++ combine b (skipn (length a) x).
Proof. induction a as [|y a IH]; intros [|z x]; cbn; try reflexivity; [now destruct b|]. f_equal. apply IH. Qed.

Lemma fill_x_places {A B} (cols : list (list (nat * A))) : forall (x : list B) k j e, In e (nth j (fill_x cols x) []) ->
  In (fst e, (k + j)%nat, snd e) (combine (concat (map (fun jc => map (fun e => (fst e, fst jc)) (snd jc)) (combine (seq k (length cols)) cols))) x).
Proof.
  induction cols as [|c cols IH]; intros x k j e He; [destruct j; destruct He|]. cbn [length seq combine map concat fst snd].
  rewrite combine_split, map_length. apply in_app_iff. destruct j as [|j].
  - left. cbn [fill_x nth] in He. rewrite Nat.add_0_r. clear IH. revert He. generalize (firstn (length c) x). intros y. revert y.
    induction c as [|d c IHc]; intros [|z y] He; try destruct He as [].
    + left. subst e. reflexivity.
    + right. now apply IHc.
  - right. cbn [fill_x nth] in He. replace (k + S j)%nat with (S k + j)%nat by lia. now apply IH.
Qed.

Lemma fill_x_col {A B} (cols : list (list (nat * A))) : forall (x : list B) j, length x = length (concat cols) -> map fst (nth j (fill_x cols x) []) = map fst (nth j cols []).
Proof.
  induction cols as [|c cols IH]; intros x j L; [now destruct j|]. cbn [concat] in L. rewrite app_length in L. destruct j as [|j]; cbn [fill_x nth].
  - assert (L1 : length (firstn (length c) x) = length c) by (rewrite firstn_length; lia). revert L1. generalize (firstn (length c) x). clear.
    induction c as [|d c IH]; intros [|z y] H; try discriminate H; [reflexivity|]. cbn. f_equal. apply IH. now injection H.
  - apply IH. rewrite skipn_length. lia.
Qed.

Lemma sorted_filter (c : list (nat * Z)) i : StronglySorted lt (map fst c) -> (length (filter (fun e => Nat.eqb (fst e) i) c) <= 1)%nat.
Proof.
  induction c as [|e c IH]; intros H; [cbn; lia|]. cbn [map] in H. inversion H as [|? ? H1 H2]; subst. cbn [filter].
  destruct (Nat.eqb_spec (fst e) i) as [E|E]; [|now apply IH]. rewrite filter_none; [cbn; lia|].
  intros y Hy. apply Nat.eqb_neq. rewrite Forall_forall in H2. specialize (H2 (fst y) (in_map fst _ _ Hy)). lia.
Qed.

Definition the_sign (M : list (list (nat * Z))) (theta : list R) (i : nat) : R :=
  match filter (fun e => Nat.eqb (fst e) i) (nth i M []) with
  | [] => 1
  | e :: _ => if Rlt_dec (nth (Z.to_nat (snd e - 1)) theta 0) 0 then -1 else 1
  end.
Lemma the_sign_sign M theta i : sign (the_sign M theta i).
Proof. unfold the_sign, sign. destruct (filter _ _); [now left|]. destruct (Rlt_dec _ _); [now right|now left]. Qed.

Lemma LamM_abs (M : list (list (nat * Z))) theta i j : (forall c, In c M -> StronglySorted lt (map fst c)) -> (forall j e, In e (nth j M []) -> fst e = j) ->
  LamM M (map Rabs theta) i j = the_sign M theta i * LamM M theta i j.
Proof.
  intros S D. destruct (Nat.eq_dec i j) as [<-|N].
  - unfold LamM, the_sign. assert (L : (length (filter (fun e => Nat.eqb (fst e) i) (nth i M [])) <= 1)%nat).
    { apply sorted_filter. destruct (Nat.ltb_spec i (length M)) as [I|I]; [apply S; now apply nth_In|]. rewrite nth_overflow by exact I. constructor. }
    destruct (filter (fun e : nat * Z => (fst e =? i)%nat) (nth i M [])) as [|e [|]]; [cbn; ring| |cbn in L; lia].
    unfold lsum. cbn [map fold_right]. set (l := Z.to_nat (snd e - 1)).
    assert (A : nth l (map Rabs theta) 0 = Rabs (nth l theta 0)) by (rewrite <- Rabs_R0 at 1; apply map_nth).
    rewrite A, !Rplus_0_r. destruct (Rlt_dec (nth l theta 0) 0) as [T|T]; [rewrite Rabs_left by exact T; ring|rewrite Rabs_right by lra; ring].
  - unfold LamM. rewrite filter_none; [cbn; ring|]. intros e He. apply Nat.eqb_neq. rewrite (D j e He). auto.
Qed.

Lemma flip_length s u : length s = length u -> length (flip s u) = length u.
Proof. intros H. unfold flip. rewrite map_length, combine_length. lia. Qed.
Lemma flip_nth s u i : length s = length u -> nth i (flip s u) 0 = nth i s 0 * nth i u 0.
Proof.
  intros H. unfold flip. revert u i H. induction s as [|a s IH]; intros [|b u] [|i] H; try discriminate H; cbn; try ring. apply IH. now injection H.
Qed.

Lemma abs_Rabs (x : R) : abs Rnum x = Rabs x.
Proof.
  unfold abs. cbn. unfold Rltb. destruct (Rlt_dec x 0) as [H|H]; [now rewrite Rabs_left|rewrite Rabs_right by lra; reflexivity].
Qed.

Lemma fill_x_sorted n r : proper_re n r -> forall c, In c (filled r) -> StronglySorted lt (map fst c).
Proof.
  intros P c Hc. destruct (In_nth _ _ [] Hc) as [j [Hj <-]]. unfold filled in *. rewrite fill_x_col by exact (pr_Lind _ _ P). rewrite fill_x_length in Hj.
  apply (pr_sorted _ _ P). now apply nth_In.
Qed.

Lemma diagonal n r : proper_re n r -> bounds_fit r -> forallb (fun b => match b with Zero => true | MinusInf => false end) (rt_lower _ r) = true ->
  forall j e, In e (nth j (filled r) []) -> fst e = j.
Proof.
  intros P [BL B] F j e He. apply (B (fst e) j (snd e)); [exact (fill_x_places _ _ 0 j e He)|].
  assert (I : In (nth (Z.to_nat (snd e - 1)) (rt_lower _ r) MinusInf) (rt_lower _ r)).
  { apply nth_In. rewrite BL. destruct (Nat.ltb_spec j (length (filled r))) as [J|J]; [|rewrite (nth_overflow (filled r)) in He by exact J; destruct He].
    assert (Q : In (snd e) (rt_Lind _ r)) by exact (fill_x_values _ _ _ e (nth_In _ [] J) He).
    pose proof (pr_range _ _ P _ Q). lia. }
  rewrite forallb_forall in F. specialize (F _ I). destruct (nth _ _ _); [reflexivity|discriminate F].
Qed.

Section Signs.
Context (n : nat) (m : modfr Rnum) (r : retrms Rnum) (P : proper n m) (E : mo_re _ m = Some r)
  (D : forall j e, In e (nth j (filled r) []) -> fst e = j).
Let Q : proper_re n r := pr_re _ _ P r E.

Lemma LZ_abs theta i k : (k < n)%nat -> LZ (whole (frame_of m r)) (map Rabs theta) i k = the_sign (filled r) theta i * LZ (whole (frame_of m r)) theta i k.
Proof.
  intros K. rewrite !(LZ_filled m r n) by assumption. rewrite <- sumR_scal. apply sumR_ext. intros j _.
  rewrite LamM_abs by (try exact D; exact (fill_x_sorted n r Q)). ring.
Qed.

Lemma predictor_abs theta beta u k : length u = nrandom m -> (k < n)%nat ->
  predictor m beta (map Rabs theta) u k = predictor m beta theta (flip (map (the_sign (filled r) theta) (seq 0 (nrandom m))) u) k.
Proof.
  intros U K. unfold predictor. rewrite E. unfold eta. f_equal. set (s := map (the_sign (filled r) theta) (seq 0 (nrandom m))).
  assert (SL : length s = length u) by (unfold s; now rewrite map_length, seq_length).
  rewrite flip_length by exact SL. apply sumR_ext. intros i Hi. rewrite LZ_abs by exact K. rewrite flip_nth by exact SL.
  assert (SN : nth i s 0 = the_sign (filled r) theta i) by (unfold s; apply nth_map_seq; lia). rewrite SN. ring.
Qed.

Lemma covariance_abs theta k l : (k < n)%nat -> (l < n)%nat -> covariance m (map Rabs theta) k l = covariance m theta k l.
Proof.
  intros K L. unfold covariance. rewrite E. apply sumR_ext. intros i _. rewrite !LZ_abs by assumption.
  destruct (the_sign_sign (filled r) theta i) as [->| ->]; ring.
Qed.
End Signs.

Lemma seen_signs n m r theta beta : proper n m -> mo_re _ m = Some r -> bounds_fit r -> length theta = ntheta m ->
  exists theta', report_estim Rnum (rt_lower _ r) (ntheta m) (theta ++ beta) = theta' ++ beta /\ length theta' = ntheta m /\
  ((forall b, In b (rt_lower _ r) -> b = Zero) -> List.Forall (fun t => 0 <= t) theta') /\
  (exists s, length s = nrandom m /\ List.Forall sign s /\
    forall u k, length u = nrandom m -> (k < n)%nat -> predictor m beta theta' u k = predictor m beta theta (flip s u) k) /\
  forall k l, (k < n)%nat -> (l < n)%nat -> covariance m theta' k l = covariance m theta k l.
Proof.
  intros P E B T. unfold report_estim. destruct (forallb _ (rt_lower _ r)) eqn:FB.
  - exists (map Rabs theta). split; [|split; [now rewrite map_length|split]].
    + rewrite <- T. rewrite firstn_app, firstn_all, Nat.sub_diag, skipn_app, skipn_all, Nat.sub_diag. cbn [firstn skipn app]. rewrite app_nil_r. f_equal.
      apply map_ext. exact abs_Rabs.
    + intros _. apply Forall_forall. intros x Hx. apply in_map_iff in Hx. destruct Hx as [y [<- _]]. apply Rabs_pos.
    + pose proof (diagonal n r (pr_re _ _ P r E) B FB) as D. split.
      * exists (map (the_sign (filled r) theta) (seq 0 (nrandom m))). split; [now rewrite map_length, seq_length|]. split.
        -- apply Forall_forall. intros x Hx. apply in_map_iff in Hx. destruct Hx as [y [<- _]]. apply the_sign_sign.
        -- intros u k U K. now apply predictor_abs with (n := n).
      * intros k l K L. now apply covariance_abs with (n := n) (r := r).
  - exists theta. split; [reflexivity|]. split; [exact T|]. split.
    + intros H. exfalso. rewrite <- not_true_iff_false in FB. apply FB. apply forallb_forall. intros b Hb. now rewrite (H b Hb).
    + split; [|reflexivity]. exists (repeat 1 (nrandom m)). split; [apply repeat_length|]. split.
      * apply Forall_forall. intros x Hx. apply repeat_spec in Hx. now left.
      * intros u k U K. f_equal. rewrite <- U. clear. induction u as [|x u IH]; [reflexivity|]. cbn. unfold flip in IH. rewrite <- IH. f_equal. ring.
Qed.

(** Integrals over cubes. *)
Lemma cube_ext q a g g' : (forall u, length u = q -> g u = g' u) -> cube q a g = cube q a g'.
Proof.
  revert g g'. induction q as [|q IH]; intros g g' H; [now apply H|]. cbn [cube]. apply RInt_ext. intros x _. apply IH. intros u U. apply H. cbn. now rewrite U.
Qed.

Lemma RInt_mirror (h : R -> R) a : RInt (fun x => h (- x)) (- a) a = RInt h (- a) a.
Proof.
  unfold RInt. apply (eq_close (K := R_AbsRing) (V := R_NormedModule)). refine (close_iota (T := R_CompleteSpace) _ _ _). intros l.
  assert (A : forall (g : R -> R) (l : R), is_RInt g (- a) a l -> is_RInt (fun x : R => g (- x)) (- a) a l).
  { intros g l' H. apply (is_RInt_ext (fun y => opp (opp (g (- y))))); [intros; apply opp_opp|].
    rewrite <- (opp_opp l'). apply (is_RInt_opp (fun y => opp (g (- y)))). apply (is_RInt_comp_opp g).
    rewrite Ropp_involutive. exact (is_RInt_swap (V := R_NormedModule) g a (- a) l' H). }
  split; intros H; [|now apply A]. apply (is_RInt_ext (fun x => h (- - x))); [intros; now rewrite Ropp_involutive|]. exact (A (fun x => h (- x)) l H).
Qed.

Lemma cube_flip q a : forall s g, length s = q -> List.Forall sign s -> cube q a (fun u => g (flip s u)) = cube q a g.
Proof.
  induction q as [|q IH]; intros [|x s] g L S; try discriminate L; [reflexivity|]. injection L as L. inversion S as [|? ? Sx Ss]; subst.
  cbn [cube]. transitivity (RInt (fun y => cube (length s) a (fun u => g ((x * y) :: u))) (- a) a).
  - apply RInt_ext. intros y _. exact (IH s (fun v => g ((x * y) :: v)) eq_refl Ss).
  - destruct Sx as [->| ->].
    + apply RInt_ext. intros y _. rewrite Rmult_1_l. reflexivity.
    + rewrite <- RInt_mirror. apply RInt_ext. intros y _. replace (-1 * - y) with y by ring. reflexivity.
Qed.

Theorem C45_signs_main n m r theta beta : proper n m -> mo_re _ m = Some r -> bounds_fit r -> length theta = ntheta m ->
  exists theta', report_estim Rnum (rt_lower _ r) (ntheta m) (theta ++ beta) = theta' ++ beta /\ length theta' = ntheta m /\
  ((forall b, In b (rt_lower _ r) -> b = Zero) -> List.Forall (fun t => 0 <= t) theta') /\
  (exists s, length s = nrandom m /\ List.Forall sign s /\
    forall density u, length u = nrandom m -> joint n density m beta theta' u = joint n density m beta theta (flip s u)) /\
  (forall k l, (k < n)%nat -> (l < n)%nat -> covariance m theta' k l = covariance m theta k l) /\
  forall density a, cube (nrandom m) a (joint n density m beta theta') = cube (nrandom m) a (joint n density m beta theta).
Proof.
  intros P E B T. destruct (seen_signs n m r theta beta P E B T) as [theta' [H1 [H2 [H3 [[s [S1 [S2 S3]]] H5]]]]].
  assert (J : forall density u, length u = nrandom m -> joint n density m beta theta' u = joint n density m beta theta (flip s u)).
  { intros density u U. unfold joint. f_equal.
    - f_equal. apply map_ext_in. intros k Hk. apply S3; [exact U|]. apply in_seq in Hk. lia.
    - rewrite flip_length by (now rewrite U). f_equal. f_equal. f_equal. apply sumR_ext. intros i Hi. rewrite flip_nth by (now rewrite U).
      assert (Q : sign (nth i s 0)) by (rewrite Forall_forall in S2; apply S2; apply nth_In; lia). destruct Q as [->| ->]; ring. }
  exists theta'. split; [exact H1|]. split; [exact H2|]. split; [exact H3|]. split; [exists s; repeat split; assumption|]. split; [exact H5|].
  intros density a. rewrite <- (cube_flip (nrandom m) a s (joint n density m beta theta) S1 S2). apply cube_ext. intros u U. now apply J.
Qed.
