(** C88: output while a model is fitted. *)
From Coq Require Import List ZArith Arith Reals Bool Lia Lra.
From Verif Require Import Model.Base Model.Family Model.Vectors Model.Frames Model.Fit Model.Environment Model.Progress
  Spec.Numbers Spec.GLMMSpec Spec.MatrixSpec Spec.FramesSpec Spec.FitSpec Spec.EnvironmentSpec Spec.ProgressSpec Proofs.FitMain.
Import ListNotations.
Local Open Scope R_scope.
Notation length := List.length.

(** * The result *)
Lemma ask_result {C} (t : asks dev C) f g : (forall x s, fst (f x s) = g x) -> forall s, fst (ask_progress t f s) = answers g t.
Proof.
  intros H. induction t as [c|x k IH]; intros s; [reflexivity|]. cbn [ask_progress answers]. specialize (H x s). destruct (f x s) as [o s']. cbn [fst] in H. subst o.
  destruct (g x); cbn [bind fst]; [apply IH|reflexivity..].
Qed.
Lemma second_same lfun p_theta mu x big d : devfun_std lfun p_theta mu x true big = Ok d -> devfun_std lfun p_theta mu x false big = Ok d.
Proof.
  unfold devfun_std, devfun_ext. destruct (outside _ _) as [[|]| | |]; cbn [bind]; try discriminate; [auto|]. destruct (lfun _); [auto|discriminate..].
Qed.
Lemma C88_result_main optim solve lfun p_beta p_theta prev verbose t0 :
  fst (optimize_glmm_progress optim solve lfun p_beta p_theta prev verbose t0) = optimize_glmm (fun f x => answers f (optim x)) solve lfun p_beta p_theta prev.
Proof.
  unfold optimize_glmm_progress, optimize_glmm. unfold devfun_std_progress at 1.
  destruct (devfun_std lfun p_theta _ _ true Inf) as [d0| | |] eqn:E; cbn [bind]; try reflexivity. unfold devfun_std_progress at 1. rewrite (second_same _ _ _ _ _ _ E). cbv zeta.
  match goal with |- context [ask_progress ?t ?f ?s] => pose proof (ask_result t f (fun x => devfun_std lfun p_theta (starting_values p_theta p_beta prev) x false (dev_plus d0 100)) ltac:(reflexivity) s) as A;
    destruct (ask_progress t f s) as [o s'] end. cbn [fst] in A. subst o. destruct (answers _ _) as [[e h]| | |]; cbn [bind fst snd]; try reflexivity.
Qed.

(** * No output *)
Lemma report_quiet verbose param d s : (verbose <= 0)%Z -> report verbose param d s = s.
Proof. intros V. unfold report. destruct (Z.eqb_spec verbose 1); [lia|]. destruct (Z.eqb_spec verbose 2); [lia|]. reflexivity. Qed.
Lemma std_quiet verbose lfun p mu x b big s : (verbose <= 0)%Z -> snd (devfun_std_progress verbose lfun p mu x b big s) = s.
Proof. intros V. unfold devfun_std_progress. cbn [snd]. destruct (devfun_std _ _ _ _ _ _); [now apply report_quiet|reflexivity..]. Qed.
Lemma ask_quiet {C} (t : asks dev C) f : (forall x s, snd (f x s) = s) -> forall s, snd (ask_progress t f s) = s.
Proof.
  intros H. induction t as [c|x k IH]; intros s; [reflexivity|]. cbn [ask_progress]. specialize (H x s). destruct (f x s) as [o s']. cbn [snd] in H. subst s'.
  destruct o; [apply IH|reflexivity..].
Qed.
Lemma C88_quiet_main optim solve lfun p_beta p_theta prev verbose t0 : (verbose <= 0)%Z -> snd (optimize_glmm_progress optim solve lfun p_beta p_theta prev verbose t0) = [].
Proof.
  intros V. unfold optimize_glmm_progress.
  match goal with |- context [devfun_std_progress ?a ?b ?c ?d ?e ?f ?g ?h] => pose proof (std_quiet a b c d e f g h V) as Q; destruct (devfun_std_progress a b c d e f g h) as [o1 s1] end. cbn [snd] in Q. subst s1.
  destruct o1 as [d0| | |]; try reflexivity.
  match goal with |- context [devfun_std_progress ?a ?b ?c ?d ?e ?f ?g ?h] => pose proof (std_quiet a b c d e f g h V) as Q; destruct (devfun_std_progress a b c d e f g h) as [o2 s2] end. cbn [snd] in Q. subst s2.
  destruct o2 as [d1| | |]; try reflexivity.
  assert (E1 : Z.ltb 0 verbose = false) by (apply Z.ltb_ge; lia). assert (E2 : Z.eqb verbose 2 = false) by (apply Z.eqb_neq; lia). rewrite E1, E2. cbn [andb].
  match goal with |- context [ask_progress ?t ?f ?s] => pose proof (ask_quiet t f (fun x s0 => std_quiet verbose lfun p_theta _ x false _ s0 V) s) as A; destruct (ask_progress t f s) as [o s'] end.
  cbn [snd] in A. subst s'. destruct o; reflexivity.
Qed.

(** * The values *)
Lemma shifted_sum start x : length x = length start -> recycled_sum x start = shifted start x.
Proof.
  intros L. apply (nth_ext _ _ 0 0).
  - rewrite (recycled_len _ _ (length start)) by auto. unfold shifted. rewrite map_length, combine_length. lia.
  - intros i Hi. rewrite (recycled_len _ _ (length start)) in Hi by auto. rewrite (recycled_nth _ _ (length start)) by auto. unfold shifted.
    rewrite (nth_indep (map (fun ab => fst ab + snd ab) (combine x start)) 0 (fst (0, 0) + snd (0, 0))) by (rewrite map_length, combine_length; lia). rewrite (map_nth (fun ab : R * R => fst ab + snd ab)), combine_nth by exact L. reflexivity.
Qed.
Lemma inside_box p_theta x : (p_theta <= length x)%nat -> inside p_theta x = true <-> in_box p_theta x.
Proof.
  intros L. unfold inside, in_box. rewrite forallb_forall. split; intros H.
  - intros i Hi. assert (I : In (nth i x 0) (firstn p_theta x)) by (rewrite <- (nth_firstn_lt x 0 p_theta i Hi); apply nth_In; rewrite firstn_length; lia).
    specialize (H _ I). destruct (Rle_dec _ _); [assumption|discriminate].
  - intros v I. apply (In_nth _ _ 0) in I. destruct I as (i & Hi & <-). rewrite firstn_length in Hi. rewrite nth_firstn_lt by lia. destruct (Rle_dec _ _) as [|N]; [reflexivity|]. elim N. apply H. lia.
Qed.

Section Run.
Context (lfun : list R -> outcome R) (p_theta : nat) (start : list R) (l0 : R).
Hypothesis D : forall x, defined (lfun x).
Hypothesis Lp : (1 <= p_theta <= length start)%nat.

Definition value_at (x : list R) : dev := deviance (used_loglikelihood lfun p_theta l0 (shifted start x)).
Lemma std_value x : length x = length start -> devfun_std lfun p_theta start x false (Fin (-2 * l0 + 100)) = Ok (value_at x).
Proof.
  intros L. unfold devfun_std, devfun_ext, value_at, used_loglikelihood. rewrite shifted_sum by exact L.
  assert (Ls : length (shifted start x) = length start) by (unfold shifted; rewrite map_length, combine_length; lia).
  destruct (outside_false p_theta (shifted start x)) as [O1 O2]; [lia|]. pose proof (inside_box p_theta (shifted start x) ltac:(lia)) as I.
  destruct (inside p_theta (shifted start x)) eqn:E.
  - rewrite (proj2 O1) by (now apply I). cbn [bind]. specialize (D (shifted start x)). destruct (lfun (shifted start x)); [reflexivity|reflexivity|contradiction..].
  - rewrite (proj2 O2) by (intros B; apply I in B; discriminate). cbn [bind deviance]. do 2 f_equal. ring.
Qed.
Lemma ask_state {C} verbose (t : asks dev C) : asks_length (length start) t -> forall s,
  snd (ask_progress t (fun x => devfun_std_progress verbose lfun p_theta start x false (Fin (-2 * l0 + 100))) s) =
  fold_left (fun s x => report verbose (shifted start x) (value_at x) s) (asked value_at t) s.
Proof.
  induction t as [c|x k IH]; intros A s; [reflexivity|]. destruct A as [A1 A2]. cbn [ask_progress asked fold_left]. unfold devfun_std_progress at 1.
  rewrite std_value by exact A1. rewrite shifted_sum by exact A1. apply IH. apply A2.
Qed.
Lemma ask_value {C} verbose (t : asks dev C) : asks_length (length start) t -> forall s,
  fst (ask_progress t (fun x => devfun_std_progress verbose lfun p_theta start x false (Fin (-2 * l0 + 100))) s) = answers (fun x => Ok (value_at x)) t.
Proof.
  induction t as [c|x k IH]; intros A s; [reflexivity|]. destruct A as [A1 A2]. cbn [ask_progress answers bind]. unfold devfun_std_progress at 1.
  rewrite std_value by exact A1. apply IH. apply A2.
Qed.
Lemma value_back x : match value_at x with Fin d => Some (- d / 2) | Inf => None end = used_loglikelihood lfun p_theta l0 (shifted start x).
Proof. unfold value_at. destruct (used_loglikelihood _ _ _ _) as [l|]; cbn [deviance]; [f_equal; field|reflexivity]. Qed.

(** * Each kind of output *)
Lemma fold_trace xs : forall s, pr_started s = true ->
  pr_output (fold_left (fun s x => report 2 (shifted start x) (value_at x) s) xs s) =
  (pr_output s ++ map (fun y => Values y (used_loglikelihood lfun p_theta l0 y)) (map (shifted start) xs))%list.
Proof.
  induction xs as [|x xs IH]; intros s S0; cbn [fold_left map]; [now rewrite app_nil_r|]. rewrite IH.
  - unfold report. cbn [Z.eqb Pos.eqb andb]. rewrite S0. rewrite value_back. cbn [write_out pr_output]. now rewrite <- app_assoc.
  - unfold report. cbn [Z.eqb Pos.eqb andb]. rewrite S0. exact S0.
Qed.
Lemma fold_other verbose xs : (2 < verbose)%Z -> forall s, fold_left (fun s x => report verbose (shifted start x) (value_at x) s) xs s = s.
Proof.
  intros V. induction xs as [|x xs IH]; intros s; cbn [fold_left]; [reflexivity|]. rewrite IH. unfold report. destruct (Z.eqb_spec verbose 1); [lia|]. destruct (Z.eqb_spec verbose 2); [lia|]. reflexivity.
Qed.
Lemma fold_no_dots xs : forall s, pr_gap s = None -> pr_output (fold_left (fun s x => report 1 (shifted start x) (value_at x) s) xs s) = pr_output s.
Proof.
  induction xs as [|x xs IH]; intros s G; cbn [fold_left]; [reflexivity|]. rewrite IH; unfold report; cbn [Z.eqb Pos.eqb andb pr_gap]; rewrite G; reflexivity.
Qed.
Lemma fold_dots G xs : forall s n d, pr_gap s = Some G ->
  (forall c, c = pr_count s -> (d * (G + 1) + c <= n + 2)%nat /\ (n <= d * (G + 1) + c)%nat /\ (c <= G \/ n = 0)%nat) ->
  exists d', pr_output (fold_left (fun s x => report 1 (shifted start x) (value_at x) s) xs s) = (pr_output s ++ repeat Dot d')%list /\
    ((d + d') * (G + 1) <= n + length xs + 2)%nat /\ (n + length xs < (d + d' + 1) * (G + 1))%nat.
Proof.
  induction xs as [|x xs IH]; intros s n d Gs H; cbn [fold_left length].
  - exists 0%nat. cbn [repeat]. rewrite app_nil_r. split; [reflexivity|]. destruct (H _ eq_refl) as (A & B & E). rewrite !Nat.add_0_r. split; nia.
  - destruct (H _ eq_refl) as (A & B & E). unfold report at 2. cbn [Z.eqb Pos.eqb andb pr_gap pr_count]. rewrite Gs. destruct (Nat.ltb_spec G (S (pr_count s))) as [L|L].
    + destruct (IH (mkProgress 0 (Some G) (pr_started s) (pr_output s ++ [Dot])) (S n) (S d) eq_refl) as (d' & O & P1 & P2).
      { intros c ->. cbn [pr_count]. split; [|split]; nia. }
      exists (S d'). cbn [pr_output] in O. split; [|split; nia].
      change (repeat Dot (S d')) with ([Dot] ++ repeat Dot d')%list. rewrite app_assoc. exact O.
    + destruct (IH (mkProgress (S (pr_count s)) (Some G) (pr_started s) (pr_output s)) (S n) d eq_refl) as (d' & O & P1 & P2).
      { intros c ->. cbn [pr_count]. split; [|split]; lia. }
      exists d'. cbn [pr_output] in O. split; [exact O|split; nia].
Qed.
End Run.

(** * The whole *)
Lemma report_before verbose param d c : c = 0%nat \/ c = 1%nat ->
  report verbose param d (mkProgress c (Some 100%nat) false []) = mkProgress (if Z.eqb verbose 1 then S c else c) (Some 100%nat) false [].
Proof. intros C. unfold report. destruct (Z.eqb verbose 1); destruct C as [->| ->]; cbn [pr_gap pr_count Nat.ltb Nat.leb pr_started]; rewrite andb_false_r; reflexivity. Qed.
Section Whole.
Context (optim : list R -> asks dev (list R * list (list R))) (solve : list (list R) -> outcome (list (list R))) (lfun : list R -> outcome R).
Context (p_beta p_theta : nat) (prev : option (list R)) (start : list R) (l0 t0 : R).
Hypothesis Es : start = match prev with Some x => x | None => repeat (1 / 2) p_theta ++ repeat 0 p_beta end.
Hypothesis Ls : length start = (p_theta + p_beta)%nat.
Hypothesis Lp : (1 <= p_theta)%nat.
Hypothesis D : forall x, defined (lfun x).
Hypothesis A : asks_length (p_theta + p_beta) (optim (repeat 0 (p_theta + p_beta))).
Hypothesis B : in_box p_theta start.
Hypothesis E0 : lfun start = Ok l0.

Lemma start_value stop : devfun_std lfun p_theta start (repeat 0 (p_theta + p_beta)) stop Inf = Ok (Fin (-2 * l0)).
Proof.
  rewrite <- Ls. rewrite std_zero by reflexivity. unfold devfun_ext. destruct (outside_false p_theta start) as [O1 _]; [lia|]. rewrite (proj2 O1 B). cbn [bind]. now rewrite E0.
Qed.
Definition begun (verbose : Z) : progress :=
  mkProgress (if Z.eqb verbose 1 then 2 else 0) (find_gap t0) true
    ((if Z.ltb 0 verbose then opening t0 else []) ++ (if Z.eqb verbose 2 then [EndLine] else [])).
Lemma whole_output verbose : snd (optimize_glmm_progress optim solve lfun p_beta p_theta prev verbose t0) =
  (pr_output (fold_left (fun s x => report verbose (shifted start x) (value_at lfun p_theta start l0 x) s)
     (asked (value_at lfun p_theta start l0) (optim (repeat 0 (length start)))) (begun verbose))
   ++ (if Z.ltb 0 verbose then closing optim lfun p_theta start l0 else []))%list.
Proof.
  unfold optimize_glmm_progress. replace (starting_values p_theta p_beta prev) with start by (rewrite Es; reflexivity).
  unfold devfun_std_progress at 1. rewrite start_value. unfold devfun_std_progress at 1. rewrite start_value. cbv zeta. cbn [dev_plus].
  rewrite <- Ls in A |- *. assert (Lb : (1 <= p_theta <= length start)%nat) by lia.
  match goal with |- context [ask_progress ?t ?f ?s] => assert (S0 : s = begun verbose); [|rewrite S0; clear S0] end.
  { rewrite (report_before verbose _ _ 0 (or_introl eq_refl)). rewrite report_before by (destruct (Z.eqb verbose 1); [right|left]; reflexivity).
    unfold begun, opening, Rltb. cbn [pr_started pr_count pr_gap pr_output].
    destruct (Z.ltb 0 verbose), (Z.eqb verbose 2), (Z.eqb verbose 1), (Rlt_dec (1 / 10) t0); reflexivity. }
  match goal with |- context [ask_progress ?t ?f ?s] => pose proof (ask_state lfun p_theta start l0 D Lb verbose t A s) as AS; pose proof (ask_value lfun p_theta start l0 D Lb verbose t A s) as AV;
    destruct (ask_progress t f s) as [o s'] end.
  cbn [fst snd] in AS, AV. subst o s'. unfold closing. change (fun x => Ok (deviance (used_loglikelihood lfun p_theta l0 (shifted start x)))) with (fun x => Ok (value_at lfun p_theta start l0 x)).
  destruct (answers _ _) as [out| | |]; cbn [snd]; destruct (Z.ltb 0 verbose); rewrite ?app_nil_r; reflexivity.
Qed.

Lemma C88_trace_main : snd (optimize_glmm_progress optim solve lfun p_beta p_theta prev 2 t0) =
  (opening t0 ++ [EndLine] ++ map (fun y => Values y (used_loglikelihood lfun p_theta l0 y)) (points optim lfun p_theta start l0) ++ closing optim lfun p_theta start l0)%list.
Proof. rewrite whole_output, fold_trace by reflexivity. cbn [begun Z.ltb Z.eqb Z.compare Pos.eqb pr_output]. rewrite <- !app_assoc. reflexivity. Qed.
Lemma C88_more_main verbose : (2 < verbose)%Z -> snd (optimize_glmm_progress optim solve lfun p_beta p_theta prev verbose t0) = (opening t0 ++ closing optim lfun p_theta start l0)%list.
Proof.
  intros V. assert (Lb : (1 <= p_theta <= length start)%nat) by (rewrite Ls; clear - Lp; lia). rewrite whole_output. rewrite (fold_other lfun p_theta start l0 Lb verbose _ V). unfold begun. cbn [pr_output]. destruct (Z.ltb_spec 0 verbose); [|lia]. destruct (Z.eqb_spec verbose 2); [lia|]. now rewrite app_nil_r.
Qed.
Lemma C88_dots_main : exists d, snd (optimize_glmm_progress optim solve lfun p_beta p_theta prev 1 t0) = (opening t0 ++ repeat Dot d ++ closing optim lfun p_theta start l0)%list /\
  let n := length (points optim lfun p_theta start l0) in
  (t0 = 0 -> d = 0%nat) /\
  (forall G, 0 < t0 -> INR G <= 1 / t0 < INR G + 1 -> (d * (G + 1) <= n + 2)%nat /\ (n < (d + 1) * (G + 1))%nat).
Proof.
  assert (Lb : (1 <= p_theta <= length start)%nat) by (rewrite Ls; clear - Lp; lia). rewrite whole_output. unfold points. rewrite map_length. set (xs := asked _ _).
  change (asked (value_at lfun p_theta start l0) (optim (repeat 0 (length start)))) with xs.
  destruct (Req_EM_T t0 0) as [Z|N].
  - exists 0%nat. rewrite fold_no_dots.
    + cbn [begun Z.ltb Z.eqb Z.compare Pos.eqb pr_output repeat app]. rewrite app_nil_r. split; [reflexivity|]. split; [reflexivity|]. intros G P. lra.
    + cbn [begun pr_gap]. unfold find_gap. destruct (Req_EM_T t0 0); [reflexivity|contradiction].
  - destruct (fold_dots lfun p_theta start l0 Lb (Z.to_nat (Int_part (1 / t0))) xs (begun 1) 0 0) as (d & O & P1 & P2).
    + cbn [begun pr_gap]. unfold find_gap. destruct (Req_EM_T t0 0); [contradiction|reflexivity].
    + intros c ->. cbn [begun pr_count Z.eqb Pos.eqb]. split; [|split]; lia.
    + exists d. rewrite O. cbn [begun Z.ltb Z.eqb Z.compare Pos.eqb pr_output]. rewrite app_nil_r, <- app_assoc. split; [reflexivity|]. split; [intros; contradiction|].
      intros G P [I1 I2]. assert (EG : Z.to_nat (Int_part (1 / t0)) = G).
      { unfold Int_part. rewrite <- (up_tech (1 / t0) (Z.of_nat G)); [replace (Z.of_nat G + 1 - 1)%Z with (Z.of_nat G) by ring; apply Nat2Z.id| |]; rewrite ?plus_IZR, <- INR_IZR_INZ; lra. }
      rewrite EG in P1, P2. split; lia.
Qed.
End Whole.
