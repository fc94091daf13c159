(** A concrete environment for C84. *)
From Coq Require Import String List ZArith Arith Reals Bool Lra Lia.
From Verif Require Import Model.Base Model.Family Model.GLMM Model.SplitFrame Model.Vectors Model.Frames Model.Indexing Model.Subexpr Model.FindIndices Model.Flatten
  Model.SplitFormula Model.FindModfr Model.MultiNormal Model.IS Model.HOL Model.LfunSR Model.Control Model.Fit Model.NormalApprox Model.Glmm Model.Environment
  Spec.Numbers Spec.ControlSpec Spec.FitSpec Spec.GlmmSpec Spec.EnvironmentSpec Proofs.HOLMain Proofs.MirrorCases Proofs.FindModfrCases Proofs.GlmmMain Proofs.GlmmCases Proofs.EnvironmentMain.
Import ListNotations.
Local Open Scope string_scope.
Local Open Scope R_scope.
Notation length := List.length.

(** The environment has the argument of the last evaluation (none after an error) and the
    number of points. *)
Definition dev_value (k : R) (x : list R) : outcome R := if Rltb 3 (nth 0 x 0) then Throw RuntimeError else Ok (k * nth 1 x 0).
Definition case_V : lme4 := mkLme4 (list R * R) (fun _ _ => Ok ([], 1)) (fun _ k e => Ok (fst e, k))
  (fun e x => (dev_value (snd e) x, (if Rltb 3 (nth 0 x 0) then [] else x, snd e)))
  (fun e => [nth 0 (fst e) 0]) (fun _ => 1%nat) (fun _ => [[2]]) (fun _ => [[1]]).
Definition env_dev (x : list R) : outcome (R * rvec * rmat) :=
  d <- dev_value 1 x ;; Ok (d, [nth 0 x 0], na_precision (compute_normal_approx (mkAfter d [nth 0 x 0] 1 [[2]] [[1]]))).
Definition stay_asks (x0 : list R) : asks dev (list R * list (list R)) :=
  Ask x0 (fun d => Done (match d with Fin _ => Ok (x0, [[1]]) | Inf => Throw RuntimeError end)).
Definition grad_asks (x : list R) : asks R rvec := Ask x (fun _ => Done (Ok (map (fun _ => 1) x))).
Definition env_X : externals :=
  mkExternals case_other (fun _ => Ok case_h) case_formula_frame case_sub_frame case_sparse (fun _ _ => Ok env_dev) (fun _ _ k => Ok (dev_value k))
    (fun _ _ => []) (fun _ => hR) (fun _ => hC) (fun _ => 19 / 16) divide (fun _ _ => hfam)
    (fun A => A) (fun _ => 1) (fun _ => true) unit (fun _ => []) (fun _ _ => 0) (fun _ _ => []) (fun _ _ => []) (fun _ _ _ _ _ _ _ _ => Throw RuntimeError)
    (fun f x => answers f (stay_asks x)) (fun _ => Ok [[1; 0]; [0; 1]]) (fun f x => answers f (grad_asks x)) (fun _ => ["g"]) (fun _ => ["x"]).

Lemma case_implements : implements case_V env_X.
Proof.
  intros m r. cbn [v_make case_V]. split.
  - exists env_dev, (fun e => snd e = 1). split; [reflexivity|]. split; [reflexivity|]. intros e x E. cbn [v_call case_V fst snd v_delu v_n v_L v_P]. split; [exact E|].
    rewrite E. unfold env_dev, dev_value. destruct (Rltb 3 (nth 0 x 0)); cbn [bind]; [reflexivity|]. split; [reflexivity|]. split; reflexivity.
  - intros k. cbn [v_update case_V fst]. exists (dev_value k), (fun e => snd e = k). split; [reflexivity|]. split; [reflexivity|].
    intros e x E. cbn [v_call case_V fst snd]. split; [exact E|now rewrite E].
Qed.
Lemma stay_optimize2 inv lfun p_beta p_theta prev mu l : mu = starting_values p_theta p_beta prev -> (1 <= p_theta)%nat -> length mu = (p_theta + p_beta)%nat ->
  (forall x, In x mu -> Rabs x <= 5) -> lfun mu = Ok l -> optimize_glmm (fun f x => answers f (stay_asks x)) (fun _ => Ok inv) lfun p_beta p_theta prev = Ok (mu, mscale 2 inv).
Proof.
  intros E T L B W. pose proof (stay_optimize inv lfun p_beta p_theta prev mu l E T L B W) as O. unfold optimize_glmm in O |- *.
  destruct (devfun_std lfun p_theta (starting_values p_theta p_beta prev) (repeat 0 (p_theta + p_beta)) true Inf) as [d0| | |]; try discriminate O. cbn [bind] in O |- *.
  unfold stay in O. cbn [answers stay_asks].
  match type of O with bind (match ?o with _ => _ end) _ = _ => destruct o as [[v|]| | |] end; try discriminate O. cbn [bind] in O |- *. exact O.
Qed.

Lemma env_lfun family link m r con : lookup "order" con = Some 1 -> exists lf, find_lfun_glmm_internal env_X family link m r env_dev "Laplace" con = Ok lf /\ lf [-1; 2] = Ok (- (1)).
Proof.
  intros O. eexists. split.
  - unfold find_lfun_glmm_internal. cbn [String.eqb Ascii.eqb Bool.eqb]. rewrite O. cbn [needed bind]. unfold find_lfun_Laplace, Reqb at 1. destruct (Req_EM_T 1 1) as [_|N]; [|now contradiction N]. cbn [bind]. reflexivity.
  - unfold env_dev, dev_value. cbn [nth]. unfold Rltb at 1. destruct (Rlt_dec 3 (-1)) as [A|_]; [exfalso; lra|]. cbn [bind]. unfold lfun_Laplace, Reqb. destruct (Req_EM_T 1 1) as [_|N]; [|now contradiction N]. f_equal. lra.
Qed.
Lemma env_case : implements case_V env_X /\ (forall f x, x_optim env_X f x = answers f (stay_asks x)) /\ (forall f x, x_grad env_X f x = answers f (grad_asks x)) /\
  exists f lf con e, glmm_env case_V env_X stay_asks grad_asks simple_formula [] [] "poisson" "log" ["Laplace"] [] [3; 5] (Some [-1; 2]) =
    Ok (GlmmFitEnv case_V f lf case_h "Laplace" con None false, e) /\ fst (lf [-1; 2] e) = Ok (- (1)) /\
    fst (lf [4; 2] e) = Throw RuntimeError /\
    v_delu case_V (snd (v_call case_V e [1; 2])) <> v_delu case_V (snd (v_call case_V e [2; 2])).
Proof.
  split; [exact case_implements|]. split; [reflexivity|]. split; [reflexivity|].
  destruct (laplace_control [] eq_refl) as (con & w & E & O & CL). destruct (env_lfun "poisson" "log" case_h case_hr con O) as (lf & L & W).
  assert (OP : optimize_glmm (x_optim env_X) (x_inv env_X) lf (mo_p _ case_h) (length (rt_theta _ case_hr)) (Some [-1; 2]) = Ok ([-1; 2], mscale 2 [[1; 0]; [0; 1]])).
  { apply (stay_optimize2 _ _ _ _ _ [-1; 2] (- (1))); [reflexivity|cbn; lia|reflexivity| |exact W]. intros x [<-|[<-|[]]]; [rewrite <- Rabs_Ropp|]; rewrite Rabs_pos_eq; lra. }
  assert (Z : forall b, In b (rt_lower _ case_hr) -> b = Zero) by (intros b [<-|[]]; reflexivity).
  assert (M : find_modfr_glmm (x_other env_X) (parse_formula env_X "poisson") (x_sub env_X) (x_sparse env_X) simple_formula [] [] = Ok case_h).
  { exact (simple_frame case_dev [] "poisson" [] [] not_gaussian). }
  assert (NI : List.Forall near_integer [3; 5]).
  { repeat constructor; [exists 3%Z|exists 5%Z]; rewrite Rminus_diag_eq by reflexivity; rewrite Rabs_R0; lra. }
  pose proof (proj1 (glmm_run env_X simple_formula [] [] "poisson" "log" "Laplace" [] [3; 5] (Some [-1; 2]) con w case_h case_hr env_dev lf _ _
      NI E M eq_refl eq_refl L OP CL Z) eq_refl) as G.
  pose proof (glmm_agrees case_V env_X stay_asks grad_asks simple_formula [] [] "poisson" "log" ["Laplace"] [] [3; 5] (Some [-1; 2]) case_implements
      (fun f x => eq_refl) (fun f x => eq_refl)) as A. rewrite G in A.
  destruct (glmm_env case_V env_X stay_asks grad_asks simple_formula [] [] "poisson" "log" ["Laplace"] [] [3; 5] (Some [-1; 2])) as [[[f lf' m' me co di un|op di un] e]| | |] eqn:GE;
    cbn [agrees_fit] in A; try discriminate A.
  destruct A as (lfun & A1 & A2). injection A1 as A3 <- <- <- <- <- <-. exists f, lf', con, e. split; [reflexivity|].
  split; [rewrite <- W; exact (A2 [] [-1; 2])|]. split.
  - assert (T : lf [4; 2] = Throw RuntimeError).
    { unfold find_lfun_glmm_internal in L. cbn [String.eqb Ascii.eqb Bool.eqb] in L. rewrite O in L. cbn [needed bind] in L. unfold find_lfun_Laplace, Reqb at 1 in L.
      destruct (Req_EM_T 1 1) as [_|N]; [|now contradiction N]. cbn [bind] in L. injection L as <-. unfold env_dev, dev_value. cbn [nth]. unfold Rltb.
      destruct (Rlt_dec 3 4) as [_|N]; [reflexivity|exfalso; apply N; lra]. }
    rewrite <- T. exact (A2 [] [4; 2]).
  - cbn [v_call v_delu case_V snd fst nth]. unfold Rltb. destruct (Rlt_dec 3 1) as [B|_]; [lra|]. destruct (Rlt_dec 3 2) as [B|_]; [lra|]. cbn [nth]. intros Q. injection Q. lra.
Qed.

(** The Laplace approximation after updateGlmerDevfun in the same environment. *)
Lemma shared_main : exists V X m r e0 lf lf2 e1 x, implements V X /\ v_make V m r = Ok e0 /\
  find_lfun_glmm_internal_env V X "binomial" "logit" m r "Laplace" [("order", 1)] e0 = (Ok lf, e0) /\
  find_lfun_glmm_internal_env V X "binomial" "logit" m r "AGQ" [("nAGQ", 15)] e0 = (Ok lf2, e1) /\
  exists l l2, fst (lf x e0) = Ok l /\ fst (lf2 x e1) = Ok l2 /\ l <> l2 /\ fst (lf x e1) = Ok l2.
Proof.
  exists case_V, env_X, case_h, case_hr, ([], 1). exists (fun x => andthen case_V (devfun case_V x) (fun d => ret case_V (- d / 2))), (fun x => andthen case_V (devfun case_V x) (fun d => ret case_V (- d / 2))), ([], 15), [1; 2].
  split; [exact case_implements|]. split; [reflexivity|]. split.
  { unfold find_lfun_glmm_internal_env. cbn [String.eqb Ascii.eqb Bool.eqb lookup find fst snd needed bind]. unfold find_lfun_Laplace_env, Reqb, lift. destruct (Req_EM_T 1 1) as [_|N]; [reflexivity|now contradiction N]. }
  split.
  { unfold find_lfun_glmm_internal_env. cbn [String.eqb Ascii.eqb Bool.eqb lookup find fst snd needed bind]. reflexivity. }
  exists (- (1)), (- (15)). unfold andthen, devfun, ret. cbn [v_call case_V snd fst]. unfold dev_value. cbn [nth]. unfold Rltb. destruct (Rlt_dec 3 1) as [B|_]; [lra|]. cbn [fst].
  split; [f_equal; lra|]. split; [f_equal; lra|]. split; [lra|f_equal; lra].
Qed.
