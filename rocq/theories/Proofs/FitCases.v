(** C62, and cases for C60-C62. *)
From Coq Require Import String List ZArith Bool Arith Lia Reals Lra.
From Coquelicot Require Import Coquelicot.
From Verif Require Import Model.Base Model.Family Model.GLMM Model.SplitFrame Model.Vectors Model.Frames Model.LfunSR Model.Fit
  Spec.Numbers Spec.GLMMSpec Spec.MatrixSpec Spec.FramesSpec Spec.FitSpec Proofs.FitMain.
Import ListNotations.
Local Open Scope R_scope.
Notation length := List.length.

(** * coef and vcov *)
Lemma select_seq x : forall n a, (a + n <= length x)%nat -> select x (seq (S a) n) = map Some (firstn n (skipn a x)).
Proof.
  induction n as [|n IH]; intros a H; [reflexivity|]. cbn [seq select flat_map app]. unfold select in IH. rewrite IH by lia.
  destruct (nth_error x a) as [v|] eqn:E; [|apply nth_error_None in E; lia].
  assert (skipn a x = v :: skipn (S a) x) as ->; [|reflexivity].
  clear - E. revert x E. induction a as [|a IH]; intros [|y x] E; try discriminate; cbn in *; [now injection E as ->|now apply IH].
Qed.
Lemma set_names_all {A} (x : list A) nms : length nms = length x -> set_names x nms = Ok (combine (map Some nms) x).
Proof. intros H. unfold set_names. rewrite H, Nat.ltb_irrefl, Nat.sub_diag. cbn. now rewrite app_nil_r. Qed.
Lemma combine_app {A C} (a1 a2 : list A) (b1 b2 : list C) : length a1 = length b1 -> combine (a1 ++ a2) (b1 ++ b2) = combine a1 b1 ++ combine a2 b2.
Proof. revert b1. induction a1 as [|a a1 IH]; intros [|b b1] H; try discriminate; cbn; auto. f_equal. apply IH. now injection H. Qed.
Lemma map_fst_combine {A C} (a : list A) (b : list C) : length a = length b -> map fst (combine a b) = a.
Proof. revert b. induction a as [|x a IH]; intros [|y b] H; try discriminate; cbn; auto. f_equal. apply IH. now injection H. Qed.

Lemma random_eq f : (1 <= ft_ptheta f)%nat -> (ft_ptheta f <= length (ft_estim f))%nat -> length (ft_names_theta f) = ft_ptheta f ->
  coef_random f = Ok (combine (map Some (map (append "RE") (ft_names_theta f))) (map Some (firstn (ft_ptheta f) (ft_estim f)))).
Proof.
  intros H1 H2 H3. unfold coef_random, colon. destruct (Nat.leb_spec 1 (ft_ptheta f)); [|lia].
  replace (ft_ptheta f - 1 + 1)%nat with (ft_ptheta f) by lia. rewrite select_seq by lia. cbn [skipn].
  apply set_names_all. rewrite !map_length, firstn_length. lia.
Qed.

Lemma C62_coef_main : forall f, (1 <= ft_ptheta f)%nat -> (1 <= ft_pbeta f)%nat -> length (ft_estim f) = (ft_ptheta f + ft_pbeta f)%nat ->
  length (ft_names_theta f) = ft_ptheta f -> length (ft_names_beta f) = ft_pbeta f ->
  let names := map (append "RE") (ft_names_theta f) ++ ft_names_beta f in
  coef f = Ok (combine (map Some names) (map Some (ft_estim f))) /\ vcov f = Ok (map Some names, ft_Sigma f).
Proof.
  intros f H1 H2 H3 H4 H5 names.
  assert (C : coef f = Ok (combine (map Some names) (map Some (ft_estim f)))).
  { unfold coef. rewrite random_eq by lia. cbn [bind]. unfold coef_fixed, colon.
    destruct (Nat.leb_spec (ft_ptheta f + 1) (ft_pbeta f + ft_ptheta f)); [|lia].
    replace (ft_pbeta f + ft_ptheta f - (ft_ptheta f + 1) + 1)%nat with (ft_pbeta f) by lia. rewrite Nat.add_1_r, select_seq by lia.
    rewrite firstn_all2 by (rewrite skipn_length; lia). rewrite set_names_all by (rewrite map_length, skipn_length; lia). cbn [bind].
    f_equal. unfold names. rewrite map_app. rewrite <- (firstn_skipn (ft_ptheta f) (ft_estim f)) at 3. rewrite map_app. symmetry. apply combine_app.
    rewrite !map_length, firstn_length. lia. }
  split; [exact C|]. unfold vcov. rewrite C. cbn [bind].
  assert (L : length (map Some names) = length (map Some (ft_estim f))).
  { unfold names. rewrite !map_length, app_length, map_length. lia. }
  rewrite (map_fst_combine _ _ L). rewrite L, map_length, Nat.eqb_refl. reflexivity.
Qed.

Lemma C62_no_fixed_main : forall f, (1 <= ft_ptheta f)%nat -> ft_pbeta f = O -> length (ft_estim f) = ft_ptheta f ->
  length (ft_names_theta f) = ft_ptheta f -> ft_names_beta f = [] ->
  (exists c, coef f = Ok c /\ map snd c = map Some (ft_estim f) ++ [None; nth_error (ft_estim f) (ft_ptheta f - 1)]) /\
  vcov f = Throw RuntimeError.
Proof.
  intros f H1 H2 H3 H4 H5.
  assert (C : coef f = Ok (combine (map Some (map (append "RE") (ft_names_theta f))) (map Some (ft_estim f)) ++
     [(None, None); (None, nth_error (ft_estim f) (ft_ptheta f - 1))])).
  { unfold coef. rewrite random_eq by lia. cbn [bind]. unfold coef_fixed, colon. rewrite H2, H5. cbn [Nat.add].
    destruct (Nat.leb_spec (ft_ptheta f + 1) (ft_ptheta f)); [lia|].
    replace (ft_ptheta f + 1 - ft_ptheta f + 1)%nat with 2%nat by lia. rewrite firstn_all2 by lia.
    destruct (ft_ptheta f) as [|n] eqn:En; [lia|]. cbn [seq rev app select flat_map].
    rewrite (proj2 (nth_error_None (ft_estim f) (S n))) by lia. cbn [app]. unfold set_names. cbn [length Nat.ltb Nat.leb bind map app Nat.sub repeat combine].
    now rewrite Nat.sub_0_r. }
  assert (L : length (map Some (map (append "RE") (ft_names_theta f))) = length (map Some (ft_estim f))) by (rewrite !map_length; lia).
  split.
  - eexists. split; [exact C|]. rewrite map_app. f_equal.
    clear - L. revert L. generalize (map Some (map (append "RE") (ft_names_theta f))) (map Some (ft_estim f)). induction l as [|x l IH]; intros [|y l0] L; try discriminate; cbn; auto.
    f_equal. apply IH. now injection L.
  - unfold vcov. rewrite C. cbn [bind]. rewrite map_length, app_length, combine_length, L, Nat.min_id, map_length. cbn [length].
    destruct (Nat.eqb_spec (length (ft_estim f) + 2) (length (ft_estim f))); [lia|reflexivity].
Qed.

(** * An optimizer that tries one other point *)
Definition try_point (t : list R) (H : list (list R)) (f : list R -> outcome dev) (x0 : list R) : outcome (list R * list (list R)) :=
  if (length t =? length x0)%nat then
    match f x0, f t with
    | Ok (Fin a), Ok (Fin b) => if Rle_dec b a then Ok (t, H) else Throw RuntimeError
    | _, _ => Throw RuntimeError
    end
  else Throw RuntimeError.
Lemma try_descends t H : descends (try_point t H).
Proof.
  intros f x0 x M E. unfold try_point in E. destruct (Nat.eqb_spec (length t) (length x0)) as [L|]; [|discriminate].
  destruct (f x0) as [[a|]| | |] eqn:E0; try discriminate. destruct (f t) as [[b|]| | |] eqn:E1; try discriminate.
  destruct (Rle_dec b a); [|discriminate]. injection E as <- <-. split; [exact L|]. exists a, b. auto.
Qed.
Lemma try_result t H f x0 x M : try_point t H f x0 = Ok (x, M) -> x = t /\ M = H.
Proof.
  unfold try_point. destruct (length t =? length x0)%nat; [|discriminate].
  destruct (f x0) as [[a|]| | |]; try discriminate. destruct (f t) as [[b|]| | |]; try discriminate.
  destruct (Rle_dec b a); [|discriminate]. intros E. injection E as <- <-. auto.
Qed.
Definition solve_two (H : list (list R)) : outcome (list (list R)) :=
  match H with
  | [[a; b]; [c; d]] => let q := a * d - b * c in
      if Req_EM_T q 0 then Throw RuntimeError else Ok [[d / q; - b / q]; [- c / q; a / q]]
  | _ => Throw RuntimeError
  end.
Lemma solve_two_ok H S : solve_two H = Ok S -> are_inverse 2 H S.
Proof.
  unfold solve_two. destruct H as [|[|a [|b [|]]] [|[|c [|d [|]]] [|]]]; try discriminate.
  set (q := a * d - b * c). destruct (Req_EM_T q 0) as [|N]; [discriminate|]. intros E. injection E as <-.
  split; [split; [reflexivity|intros [|[|i]] Hi; try lia; reflexivity]|]. split; [split; [reflexivity|intros [|[|i]] Hi; try lia; reflexivity]|].
  intros [|[|i]] [|[|j]] Hi Hj; try lia; unfold row_col, sumR, entry, unit_entry; cbn; split; unfold q in *; field; exact N.
Qed.

(** A loglikelihood with maxima at theta = 1 or -1 and beta = 1. *)
Definition valley (x : list R) : R := match x with [t; b] => - ((t ^ 2 - 1) ^ 2 + (b - t ^ 2) ^ 2) / 2 | _ => 0 end.
Definition valley_hess (t b : R) : list (list R) := [[24 * t ^ 2 - 4 - 4 * b; - 4 * t]; [- 4 * t; 2]].

Lemma valley_signless : signless 1 2 valley.
Proof.
  intros s x Ls Hs Lx. destruct s as [|s [|]]; try discriminate. destruct x as [|t [|b [|]]]; try discriminate.
  inversion Hs as [|? ? H _]; subst. cbn. destruct H as [->| ->]; field.
Qed.
Lemma valley_hessian t b : hessian 2 (fun y => -2 * valley y) [t; b] (valley_hess t b).
Proof.
  split; [reflexivity|]. split; [split; [reflexivity|intros [|[|i]] Hi; try lia; reflexivity]|].
  exists (fun i y => match y with [t; b] => match i with O => 4 * t * (t ^ 2 - 1) - 4 * t * (b - t ^ 2) | _ => 2 * (b - t ^ 2) end | _ => 0 end), 1.
  split; [lra|]. split.
  - intros i y Hi Ly _. destruct y as [|t0 [|b0 [|]]]; try discriminate. destruct i as [|[|i]]; [| |lia]; cbn [nth at_i firstn skipn app valley]; (auto_derive; [auto|]); field.
  - intros i j Hi Hj. destruct i as [|[|i]]; [| |lia]; (destruct j as [|[|j]]; [| |lia]); cbn [nth at_i firstn skipn app valley_hess entry]; unfold entry; cbn [nth valley_hess]; auto_derive; auto; ring.
Qed.

Definition valley_lfun (x : list R) : outcome R := if (length x =? 2)%nat then Ok (valley x) else Throw RuntimeError.
Definition valley_optim := try_point [-3/2; 1] (valley_hess (-1) 1).

Ltac rows := repeat first [apply (f_equal (@Ok _)) | apply (f_equal2 pair) | apply (f_equal2 cons) | reflexivity].

Lemma small_in_box x : Rabs x <= 5 -> Rltb 5 (Rabs x) = false.
Proof. intros H. unfold Rltb. destruct (Rlt_dec 5 (Rabs x)); [lra|reflexivity]. Qed.

Lemma valley_run : optimize_glmm valley_optim solve_two valley_lfun 1 1 None = Ok ([-1; 1], [[1/4; - (1/2)]; [- (1/2); 2]]).
Proof.
  assert (E1 : recycled_sum (repeat 0 2) [1/2; 0] = [1/2; 0]) by (apply recycled_zero; reflexivity).
  assert (E2 : recycled_sum [-3/2; 1] [1/2; 0] = [-1; 1]).
  { unfold recycled_sum. cbn. apply (f_equal2 cons); [field|]. apply (f_equal2 cons); [ring|reflexivity]. }
  assert (O1 : outside 1 [1/2; 0] = Ok false).
  { unfold outside, leading. cbn [Nat.max firstn existsb]. rewrite small_in_box; [reflexivity|]. rewrite Rabs_right; lra. }
  assert (O2 : outside 1 [-1; 1] = Ok false).
  { unfold outside, leading. cbn [Nat.max firstn existsb]. rewrite small_in_box; [reflexivity|]. rewrite Rabs_left; lra. }
  unfold optimize_glmm. change (starting_values 1 1 None) with [1/2; 0]. change (1 + 1)%nat with 2%nat.
  unfold devfun_std at 1. rewrite E1. unfold devfun_ext at 1. rewrite O1. cbn [bind]. unfold valley_lfun at 1. cbn [length Nat.eqb]. cbn [bind dev_plus].
  set (d0 := -2 * valley [1/2; 0]).
  assert (Eo : forall g, g (repeat 0 2) = Ok (Fin d0) -> g [-3/2; 1] = Ok (Fin (-2 * valley [-1; 1])) -> valley_optim g (repeat 0 2) = Ok ([-3/2; 1], valley_hess (-1) 1)).
  { intros g G1 G2. unfold valley_optim, try_point. cbn [length repeat Nat.eqb]. change [0; 0] with (repeat 0 2). rewrite G1, G2.
    destruct (Rle_dec _ _) as [|N]; [reflexivity|]. exfalso. apply N. unfold d0, valley. nra. }
  rewrite Eo.
  - cbn [bind]. unfold solve_two, valley_hess. cbv zeta. destruct (Req_EM_T _ 0) as [Z|N]; [exfalso; lra|]. cbn [bind]. rewrite E2.
    unfold mscale, vscale. cbn [map]. rows; field; lra.
  - unfold devfun_std. rewrite E1. unfold devfun_ext. rewrite O1. reflexivity.
  - unfold devfun_std. rewrite E2. unfold devfun_ext. rewrite O2. reflexivity.
Qed.

Lemma valley_start y : length y = 2%nat -> map (fun ab => fst ab + snd ab) (combine y [1/2; 0]) = recycled_sum y [1/2; 0].
Proof.
  intros L. destruct y as [|t [|b [|]]]; try discriminate. reflexivity.
Qed.
Lemma valley_exact : forall f x H, valley_optim f (repeat 0 2) = Ok (x, H) ->
  hessian 2 (fun y => -2 * valley (map (fun ab => fst ab + snd ab) (combine y [1/2; 0]))) x H.
Proof.
  intros f x H E. apply try_result in E. destruct E as [-> ->].
  set (T := fun y : list R => [nth 0 y 0 - 1/2; nth 1 y 0]).
  replace [-3/2; 1] with (T [-1; 1]) by (unfold T; cbn; rows; field).
  apply (hessian_affine 2 _ (fun _ => 1) (fun i => match i with O => - (1/2) | _ => 0 end) T [-1; 1] (valley_hess (-1) 1)).
  - intros i _. now left.
  - intros y Ly. split; [reflexivity|]. intros [|[|i]] Hi; [| |lia]; cbn; ring.
  - apply (hessian_ext 2 (fun y => -2 * valley y)); [|apply valley_hessian]. intros y Ly. destruct y as [|t [|b [|]]]; try discriminate. cbn. field.
  - split; [reflexivity|intros [|[|i]] Hi; try lia; reflexivity].
  - intros i j _ _. ring.
Qed.

Lemma C60_case_main : descends valley_optim /\ optimize_glmm valley_optim solve_two valley_lfun 1 1 None = Ok ([-1; 1], [[1/4; - (1/2)]; [- (1/2); 2]]).
Proof. exact (conj (try_descends _ _) valley_run). Qed.

Lemma C61_covariances_main : exists optim solve lfun L e Sigma V0 V,
  descends optim /\
  (forall f x H, optim f (repeat 0 2) = Ok (x, H) -> hessian 2 (fun y => -2 * L (map (fun ab => fst ab + snd ab) (combine y [1/2; 0]))) x H) /\
  (forall H S, solve H = Ok S -> are_inverse 2 H S) /\
  (forall x, length x = 2%nat -> lfun x = Ok (L x)) /\ signless 1 2 L /\
  optimize_glmm optim solve lfun 1 1 None = Ok (e, Sigma) /\
  let f := make_fit [Zero] 1 1 ["a"%string] ["x"%string] (e, Sigma) in
  ft_estim f = [1; 1] /\ ft_Sigma f = Some V0 /\ observed_covariance 2 L (ft_estim f) V /\ entry V0 0 1 = - (1/2) /\ entry V 0 1 = 1/2.
Proof.
  exists valley_optim, solve_two, valley_lfun, valley, [-1; 1], [[1/4; - (1/2)]; [- (1/2); 2]], [[1/4; - (1/2)]; [- (1/2); 2]], [[1/4; 1/2]; [1/2; 2]].
  split; [apply try_descends|]. split; [exact valley_exact|]. split; [exact solve_two_ok|].
  split; [intros x Hx; unfold valley_lfun; now rewrite Hx|]. split; [exact valley_signless|]. split; [exact valley_run|].
  assert (E : report_estim Rnum [Zero] 1 [-1; 1] = [1; 1]).
  { unfold report_estim. cbn [forallb andb firstn skipn map app]. unfold abs. cbn [nltb nZ nopp Rnum]. unfold Rltb. destruct (Rlt_dec (-1) 0) as [|N]; [|exfalso; lra].
    apply (f_equal2 cons); [lra|reflexivity]. }
  intros f. assert (Ef : ft_estim f = [1; 1]) by exact E.
  split; [exact Ef|]. split; [|split; [|split; reflexivity]].
  - cbn [f make_fit ft_Sigma fst snd]. replace (existsb _ _) with false; [reflexivity|]. symmetry.
    etransitivity; [exact (f_equal (fun l => existsb (fun x => Rltb (49 / 10) x) (firstn 1 l)) E)|]. cbn. unfold Rltb. destruct (Rlt_dec (49/10) 1); [lra|reflexivity].
  - rewrite Ef. exists (valley_hess 1 1), [[1/8; 1/4]; [1/4; 1]]. split; [apply valley_hessian|]. split; [|split].
    + apply solve_two_ok. unfold solve_two, valley_hess. cbv zeta. destruct (Req_EM_T _ 0) as [Z|N]; [exfalso; lra|]. rows; field.
    + split; [reflexivity|intros [|[|i]] Hi; try lia; reflexivity].
    + intros [|[|i]] [|[|j]] Hi Hj; try lia; unfold entry; cbn; field.
Qed.

Lemma C60_recycled_main : exists optim solve lfun prev e Sigma, descends optim /\ length prev = 1%nat /\
  optimize_glmm optim solve lfun 1 1 (Some prev) = Ok (e, Sigma) /\ e = prev ++ prev.
Proof.
  exists (try_point [0; 0] [[1; 0]; [0; 1]]), solve_two, valley_lfun, [1], [1; 1], [[2; 0]; [0; 2]].
  split; [apply try_descends|]. split; [reflexivity|]. split; [|reflexivity].
  assert (E1 : recycled_sum (repeat 0 2) [1] = [1; 1]) by (unfold recycled_sum; cbn; now rewrite Rplus_0_l).
  assert (O1 : outside 1 [1; 1] = Ok false).
  { unfold outside, leading. cbn [Nat.max firstn existsb]. rewrite small_in_box; [reflexivity|]. rewrite Rabs_right; lra. }
  assert (D : forall stop big, devfun_std valley_lfun 1 [1] (repeat 0 2) stop big = Ok (Fin (-2 * valley [1; 1]))).
  { intros stop big. unfold devfun_std. rewrite E1. unfold devfun_ext. rewrite O1. reflexivity. }
  unfold optimize_glmm. change (1 + 1)%nat with 2%nat. change (starting_values 1 1 (Some [1])) with [1]. rewrite D. cbn [bind].
  assert (Et : forall g, g (repeat 0 2) = Ok (Fin (-2 * valley [1; 1])) -> try_point [0; 0] [[1; 0]; [0; 1]] g (repeat 0 2) = Ok (repeat 0 2, [[1; 0]; [0; 1]])).
  { intros g G. unfold try_point. cbn [length repeat Nat.eqb]. change [0; 0] with (repeat 0 2). rewrite G. destruct (Rle_dec _ _) as [|N]; [reflexivity|]. exfalso. apply N. apply Rle_refl. }
  rewrite Et by apply D. cbn [bind]. unfold solve_two. cbv zeta. destruct (Req_EM_T _ 0) as [Z|N]; [exfalso; lra|]. cbn [bind]. rewrite E1.
  unfold mscale, vscale. cbn [map]. rows; field.
Qed.
