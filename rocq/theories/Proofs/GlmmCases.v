(** Calls of glmm. *)
From Coq Require Import String List ZArith Arith Reals Bool Lia Lra.
From Verif Require Import Model.Base Model.Family Model.GLMM Model.SplitFrame Model.Vectors Model.Frames Model.Indexing Model.Subexpr Model.FindIndices Model.Flatten
  Model.SplitFormula Model.FindModfr Model.MultiNormal Model.IS Model.HOL Model.LfunSR Model.Control Model.Fit Model.Glmm
  Spec.Numbers Spec.FamilySpec Spec.GLMMSpec Spec.MatrixSpec Spec.FramesSpec Spec.ISSpec Spec.HOLSpec Spec.MirrorSpec Spec.ControlSpec Spec.FitSpec Spec.GlmmSpec
  Proofs.ListLemmas Proofs.ControlMain Proofs.FitMain Proofs.MirrorMain Proofs.MirrorCases Proofs.HOLMain Proofs.SubexprLemmas Proofs.FindModfrCases Proofs.GlmmMain.
Import ListNotations.
Local Open Scope string_scope.
Local Open Scope R_scope.
Notation length := List.length.

(** An optimizer that stays where it is. *)
Definition stay (f : list R -> outcome dev) (x0 : list R) : outcome (list R * list (list R)) :=
  match f x0 with Ok (Fin v) => Ok (x0, [[1]]) | _ => Throw RuntimeError end.
Lemma stay_descends : descends stay.
Proof.
  intros f x0 x H E. unfold stay in E. destruct (f x0) as [[v|]| | |] eqn:F; try discriminate. injection E as <- _. split; [reflexivity|]. exists v, v. rewrite F. repeat split. lra.
Qed.
Lemma stay_optimize inv lfun p_beta p_theta prev mu l : mu = starting_values p_theta p_beta prev -> (1 <= p_theta)%nat -> length mu = (p_theta + p_beta)%nat ->
  (forall x, In x mu -> Rabs x <= 5) -> lfun mu = Ok l -> optimize_glmm stay (fun _ => Ok inv) lfun p_beta p_theta prev = Ok (mu, mscale 2 inv).
Proof.
  intros E T L B V. unfold optimize_glmm. rewrite <- E. assert (Z : recycled_sum (repeat 0 (p_theta + p_beta)) mu = mu) by (apply recycled_zero; assumption).
  assert (O : outside p_theta mu = Ok false).
  { unfold outside. destruct (existsb _ (leading p_theta mu)) eqn:X.
    - apply existsb_exists in X. destruct X as (x & I & X). assert (I' : In x mu).
      { unfold leading in I. rewrite <- (firstn_skipn (Nat.max 1 p_theta) mu). apply in_or_app. now left. }
      specialize (B x I'). unfold Rltb in X. destruct (Rlt_dec 5 (Rabs x)); [lra|discriminate].
    - destruct (Nat.ltb_spec (length mu) (Nat.max 1 p_theta)); [lia|reflexivity]. }
  assert (D : forall st big, devfun_std lfun p_theta mu (repeat 0 (p_theta + p_beta)) st big = Ok (Fin (-2 * l))) by (intros; unfold devfun_std, devfun_ext; rewrite Z, O; cbn [bind]; now rewrite V).
  rewrite D. cbn [bind]. unfold stay. rewrite D. cbn [bind]. now rewrite Z.
Qed.

Lemma glmm_run X formula subforms data family link meth control weights prev con w m r dv lf opt c :
  List.Forall near_integer weights -> find_control_with_defaults control [meth] = Ok (con, w) ->
  find_modfr_glmm (x_other X) (parse_formula X family) (x_sub X) (x_sparse X) formula subforms data = Ok m -> mo_re _ m = Some r ->
  x_devfun X m r = Ok dv -> find_lfun_glmm_internal X family link m r dv meth con = Ok lf ->
  optimize_glmm (x_optim X) (x_inv X) lf (mo_p _ m) (length (rt_theta _ r)) prev = Ok opt -> lookup "check_Laplace" con = Some c ->
  (forall b, In b (rt_lower _ r) -> b = Zero) ->
  (c = 0 -> glmm X formula subforms data family link [meth] control weights prev =
     Ok (GlmmFit (make_fit (rt_lower _ r) (length (rt_theta _ r)) (mo_p _ m) (x_names_theta X m) (x_names_beta X m) opt) lf m meth con None false)) /\
  (c <> 0 -> forall e, laplace_divergence X family link m r dv opt = Throw e -> glmm X formula subforms data family link [meth] control weights prev = Throw e) /\
  (c <> 0 -> forall d t, laplace_divergence X family link m r dv opt = Ok d -> lookup "divergence_threshold" con = Some t -> glmm X formula subforms data family link [meth] control weights prev =
     Ok (GlmmFit (make_fit (rt_lower _ r) (length (rt_theta _ r)) (mo_p _ m) (x_names_theta X m) (x_names_beta X m) opt) lf m meth con (Some d) (exceeds d t))).
Proof.
  intros W C M R0 D L O CL Z. unfold glmm. rewrite (proj1 (weights_main weights) W). cbn [bind]. rewrite C. cbn [bind fst]. rewrite M. cbn [bind]. rewrite R0, D. cbn [bind]. rewrite L. cbn [bind].
  rewrite O. cbn [bind]. rewrite CL. cbn [needed bind]. unfold Reqb. split; [|split]; intros H; destruct (Req_EM_T c 0) as [E|E]; try contradiction.
  - cbn [bind fst snd]. now rewrite (proj2 (all_zero _) Z).
  - intros e LD. rewrite LD. reflexivity.
  - intros d t LD T. rewrite LD. cbn [bind]. rewrite T. cbn [needed bind fst snd]. now rewrite (proj2 (all_zero _) Z).
Qed.

(** y ~ (1 | g) with one observation, and other packages that know one model. *)
Definition simple_formula : rexpr := Call [Name "~"; Name "y"; Call [Name "("; Call [Name "|"; Const 1; Name "g"]]].
Definition divide (A B : list (list R)) : list (list R) := mscale (/ at_ A 0 0) B.
Definition case_X (devfun : list R -> outcome (R * list R * list (list R))) (draws : list (list R)) : externals :=
  mkExternals case_other (fun _ => Ok case_h) case_formula_frame case_sub_frame case_sparse (fun _ _ => Ok devfun) (fun _ _ _ => Throw RuntimeError)
    (fun _ _ => draws) (fun _ => hR) (fun _ => hC) (fun _ => 19 / 16) divide (fun _ _ => hfam)
    (fun A => A) (fun _ => 1) (fun _ => true) unit (fun _ => []) (fun _ _ => 0) (fun _ _ => []) (fun _ _ => []) (fun _ _ _ _ _ _ _ _ => Throw RuntimeError)
    stay (fun _ => Ok [[1; 0]; [0; 1]]) (fun g x => y <- g x ;; Ok (map (fun _ => 1) x)) (fun _ => ["g"]) (fun _ => ["x"]).


(** Approximations of the random effect by a normal density that is seen with the signs. *)
Definition normal_dev (g : R -> R) (a : R) (x : list R) : outcome (R * list R * list (list R)) := Ok (0, [g (nth 0 x 0)], [[a]]).
Definition case_dev := normal_dev (fun _ => 0) 1.

Lemma simple_split : split_formula simple_formula = Ok (simple_formula, []).
Proof. lazy. reflexivity. Qed.
Lemma simple_frame devfun draws family subforms data : family <> "gaussian" ->
  find_modfr_glmm (x_other (case_X devfun draws)) (parse_formula (case_X devfun draws) family) (x_sub (case_X devfun draws)) (x_sparse (case_X devfun draws)) simple_formula subforms data = Ok case_h.
Proof.
  intros N. rewrite (C74_no_sub_main _ _ _ _ _ _ _ _ simple_split). unfold parse_formula. change (has_re simple_formula) with true. cbn iota.
  destruct (String.eqb_spec family "gaussian"); [contradiction|reflexivity].
Qed.
Lemma simple_bar : random_outside_Sub simple_formula.
Proof.
  exists [Name "~"; Name "y"], (Call [Name "("; Call [Name "|"; Const 1; Name "g"]]). split; [reflexivity|].
  apply bar_first. now constructor.
Qed.
Lemma case_X_grad devfun draws : forall g x v, x_grad (case_X devfun draws) g x = Ok v -> exists y, g x = Ok y.
Proof. intros g x v H. cbn in H. apply bind_Ok in H. destruct H as (y & Y & _). now exists y. Qed.

Lemma laplace_control control : given "order" control = None -> exists con w, find_control_with_defaults control ["Laplace"] = Ok (con, w) /\
  lookup "order" con = Some 1 /\ lookup "check_Laplace" con = Some (used "check_Laplace" 0 control).
Proof.
  intros G. destruct (C39_main control "Laplace") as (con & u & v & E & _ & _ & D & _ & _ & C & _); [now left|]. exists con, (u, v). split; [exact E|].
  pose proof (D "order" G (or_introl eq_refl) ltac:(discriminate)) as O. split; [exact O|]. destruct (C eq_refl) as (order & O' & _ & C2). rewrite O in O'. injection O' as <-. apply C2. cbn. lra.
Qed.

Lemma laplace_lfun X family link m r con : lookup "order" con = Some 1 -> exists lf, find_lfun_glmm_internal X family link m r case_dev "Laplace" con = Ok lf /\ forall x, lf x = Ok 0.
Proof.
  intros O. eexists. split.
  - unfold find_lfun_glmm_internal. cbn [String.eqb Ascii.eqb Bool.eqb]. rewrite O. cbn [needed bind]. unfold find_lfun_Laplace, Reqb at 1. destruct (Req_EM_T 1 1) as [_|N]; [|now contradiction N]. cbn [bind]. reflexivity.
  - intros x. unfold case_dev, normal_dev. cbn [bind]. unfold lfun_Laplace, Reqb. destruct (Req_EM_T 1 1) as [_|N]; [|now contradiction N]. f_equal. field.
Qed.

Lemma not_gaussian : "poisson" <> "gaussian". Proof. discriminate. Qed.
Lemma half_start : forall x, In x [1 / 2; 0] -> Rabs x <= 5.
Proof. intros x [<-|[<-|[]]]; rewrite Rabs_pos_eq; lra. Qed.

(** A family that is not binomial is fitted, but not if the check is wanted. *)
Lemma C76_check_refuted_main : exists X res, descends (x_optim X) /\
  glmm X simple_formula [] [] "poisson" "log" ["Laplace"] [] [] None = Ok res /\
  glmm X simple_formula [] [] "poisson" "log" ["Laplace"] [("check_Laplace", 1)] [] None = Throw DomainError.
Proof.
  exists (case_X case_dev []). assert (G : forall c, given "order" c = None -> exists con w lf,
    find_control_with_defaults c ["Laplace"] = Ok (con, w) /\ lookup "check_Laplace" con = Some (used "check_Laplace" 0 c) /\
    find_lfun_glmm_internal (case_X case_dev []) "poisson" "log" case_h case_hr case_dev "Laplace" con = Ok lf /\
    optimize_glmm stay (fun _ => Ok [[1; 0]; [0; 1]]) lf (mo_p _ case_h) (length (rt_theta _ case_hr)) None = Ok ([1 / 2; 0], mscale 2 [[1; 0]; [0; 1]])).
  { intros c G. destruct (laplace_control c G) as (con & w & E & O & CL). destruct (laplace_lfun (case_X case_dev []) "poisson" "log" case_h case_hr con O) as (lf & L & V).
    exists con, w, lf. refine (conj E (conj CL (conj L _))). apply (stay_optimize _ _ _ _ _ [1 / 2; 0] 0); [reflexivity|cbn; lia|reflexivity|exact half_start|apply V]. }
  destruct (G [] eq_refl) as (con & w & lf & E & CL & L & O). destruct (G [("check_Laplace", 1)] eq_refl) as (con2 & w2 & lf2 & E2 & CL2 & L2 & O2).
  assert (Z : forall b, In b (rt_lower _ case_hr) -> b = Zero) by (intros b [<-|[]]; reflexivity).
  eexists. split; [exact stay_descends|]. split.
  - refine (proj1 (glmm_run (case_X case_dev []) simple_formula [] [] "poisson" "log" "Laplace" [] [] None con w case_h case_hr case_dev lf _ _
      (List.Forall_nil _) E (simple_frame case_dev [] "poisson" [] [] not_gaussian) eq_refl eq_refl L O CL Z) eq_refl).
  - apply (proj1 (proj2 (glmm_run (case_X case_dev []) simple_formula [] [] "poisson" "log" "Laplace" [("check_Laplace", 1)] [] None con2 w2 case_h case_hr case_dev lf2 _ _
      (List.Forall_nil _) E2 (simple_frame case_dev [] "poisson" [] [] not_gaussian) eq_refl eq_refl L2 O2 CL2 Z))); [cbn; lra|reflexivity].
Qed.

(** A gaussian family is accepted if the random effects are in a subformula. *)
Lemma C76_gaussian_refuted_main : exists X res, descends (x_optim X) /\ (exists r, mo_re _ case_base = Some r) /\
  (forall subforms data res, glmm X simple_formula subforms data "gaussian" "identity" ["Laplace"] [] [] None <> Ok res) /\
  glmm X case_formula [case_subform] case_data "gaussian" "identity" ["Laplace"] [] [] None = Ok res.
Proof.
  exists (case_X case_dev []). destruct (laplace_control [] eq_refl) as (con & w & E & O & CL).
  assert (M : exists m r, find_modfr_glmm case_other (parse_formula (case_X case_dev []) "gaussian") case_sub_frame case_sparse case_formula [case_subform] case_data = Ok m /\
    mo_re _ m = Some r /\ rt_theta _ r = [1] /\ mo_p _ m = 1%nat /\ rt_lower _ r = [Zero]).
  { eexists; eexists. split; [lazy -[Rnum]; reflexivity|]. split; [reflexivity|]. repeat split. }
  destruct M as (m & r & M & R0 & T & P & LW). destruct (laplace_lfun (case_X case_dev []) "gaussian" "identity" m r con O) as (lf & L & V).
  assert (OP : optimize_glmm stay (fun _ => Ok [[1; 0]; [0; 1]]) lf (mo_p _ m) (length (rt_theta _ r)) None = Ok ([1 / 2; 0], mscale 2 [[1; 0]; [0; 1]])).
  { rewrite T, P. apply (stay_optimize _ _ _ _ _ [1 / 2; 0] 0); [reflexivity|cbn; lia|reflexivity|exact half_start|apply V]. }
  eexists. split; [exact stay_descends|]. split; [eexists; reflexivity|]. split.
  - intros subforms data res H. destruct (C76_accepted_main (case_X case_dev []) _ _ _ _ _ _ _ _ _ _ stay_descends (case_X_grad case_dev []) H) as (_ & meth & _ & _ & G & _).
    exact (G _ _ simple_split simple_bar eq_refl).
  - refine (proj1 (glmm_run (case_X case_dev []) case_formula [case_subform] case_data "gaussian" "identity" "Laplace" [] [] None con w m r case_dev lf _ _
      (List.Forall_nil _) E M R0 eq_refl L OP CL ltac:(rewrite LW; intros b [<-|[]]; reflexivity)) eq_refl).
Qed.

(** The case of C76_reported. *)
Lemma case_proper : proper 1 case_h.
Proof. exact (ft_proper _ _ _ _ _ _ _ (h_fits 1 0)). Qed.
Lemma divide_solves a : a <> 0 -> solves divide (nrandom case_h) 1 [[a]].
Proof.
  intros A B [LB SB]. change (nrandom case_h) with 1%nat in *. destruct B as [|[|b [|]] [|]]; try discriminate LB; try (specialize (SB _ (or_introl eq_refl)); discriminate SB).
  split; [split; [reflexivity|intros row [<-|[]]; reflexivity]|]. intros [|i] [|j] Hi Hj; try lia. unfold sumR, at_, divide, mscale, vscale. cbn. field. exact A.
Qed.
Lemma one_inverse a : a <> 0 -> are_inverse 1 [[a]] [[/ a]].
Proof.
  intros A. split; [split; [reflexivity|intros [|i] Hi; [reflexivity|lia]]|]. split; [split; [reflexivity|intros [|i] Hi; [reflexivity|lia]]|].
  intros [|i] [|j] Hi Hj; try lia. unfold MatrixSpec.row_col, sumR, MatrixSpec.entry, MatrixSpec.unit_entry. cbn. split; field; exact A.
Qed.
Lemma one_flipped s a : s = 1 \/ s = -1 -> flipped (nrandom case_h) [s] [[a]] [[a]].
Proof.
  intros S0. split; [split; [reflexivity|intros [|i] Hi; [reflexivity|cbn in Hi; lia]]|]. intros [|i] [|j] Hi Hj; cbn in Hi, Hj; try lia. unfold MatrixSpec.entry. cbn [nth]. destruct S0 as [->| ->]; ring.
Qed.
Lemma one_mirror t t' b s : mirror (frame_of case_h case_hr) [b] [t] [t'] s -> exists a, s = [a] /\ (a = 1 \/ a = -1) /\ t' = a * t.
Proof.
  intros (LS & FS & H). cbn in LS. destruct s as [|a [|]]; try discriminate LS. exists a. split; [reflexivity|]. split; [inversion FS; assumption|].
  specialize (H [1] 0%nat eq_refl ltac:(cbn; lia)). change (predictor case_h [b] [t'] [1] 0 = predictor case_h [b] [t] (flip [a] [1]) 0) in H. unfold flip in H. cbn [combine map fst snd] in H.
  rewrite !h_predictor in H. lra.
Qed.
Lemma normal_symmetric g a : a <> 0 -> (forall t, g (- t) = - g t) -> symmetric divide 1 case_h case_hr (normal_dev g a).
Proof.
  intros A G theta theta' beta s LT LT' LB MI d mean P [= <- <- <-]. destruct theta as [|t [|]]; try discriminate LT. destruct theta' as [|t' [|]]; try discriminate LT'.
  destruct beta as [|b [|]]; try discriminate LB. destruct (one_mirror _ _ _ _ MI) as (v & -> & V & ->).
  split; [reflexivity|]. split; [now apply divide_solves|]. split; [exists [[/ a]]; now apply one_inverse|].
  exists [[a]]. split; [|split; [now apply one_flipped|now apply divide_solves]]. unfold normal_dev, flip. cbn [combine map fst snd app nth]. do 3 f_equal. f_equal.
  destruct V as [->| ->]; [now rewrite !Rmult_1_l|]. replace (-1 * t) with (- t) by ring. rewrite G. ring.
Qed.
Lemma C76_case_main : exists X f lfun con, descends (x_optim X) /\ (forall g x v, x_grad X g x = Ok v -> exists y, g x = Ok y) /\
  glmm X simple_formula [] [] "poisson" "log" ["Laplace"] [] [3; 5] (Some [-1; 2]) = Ok (GlmmFit f lfun case_h "Laplace" con None false) /\ ft_estim f = [1; 2] /\
  ntheta case_h = 1%nat /\ proper 1 case_h /\ mo_re _ case_h = Some case_hr /\ bounds_fit case_hr /\ lookup "order" con = Some 1 /\
  forall devfun, x_devfun X case_h case_hr = Ok devfun -> symmetric (x_solve2 X) 1 case_h case_hr devfun.
Proof.
  exists (case_X case_dev []). destruct (laplace_control [] eq_refl) as (con & w & E & O & CL). destruct (laplace_lfun (case_X case_dev []) "poisson" "log" case_h case_hr con O) as (lf & L & V).
  assert (OP : optimize_glmm stay (fun _ => Ok [[1; 0]; [0; 1]]) lf (mo_p _ case_h) (length (rt_theta _ case_hr)) (Some [-1; 2]) = Ok ([-1; 2], mscale 2 [[1; 0]; [0; 1]])).
  { apply (stay_optimize _ _ _ _ _ [-1; 2] 0); [reflexivity|cbn; lia|reflexivity| |apply V]. intros x [<-|[<-|[]]]; [rewrite <- Rabs_Ropp|]; rewrite Rabs_pos_eq; lra. }
  assert (Z : forall b, In b (rt_lower _ case_hr) -> b = Zero) by (intros b [<-|[]]; reflexivity).
  eexists; exists lf, con. split; [exact stay_descends|]. split; [exact (case_X_grad case_dev [])|]. split.
  { refine (proj1 (glmm_run (case_X case_dev []) simple_formula [] [] "poisson" "log" "Laplace" [] [3; 5] (Some [-1; 2]) con w case_h case_hr case_dev lf _ _
      _ E (simple_frame case_dev [] "poisson" [] [] not_gaussian) eq_refl eq_refl L OP CL Z) eq_refl).
    repeat constructor; [exists 3%Z|exists 5%Z]; rewrite Rminus_diag_eq by reflexivity; rewrite Rabs_R0; lra. }
  split.
  { unfold make_fit, report_estim. cbn. unfold abs. cbn. unfold Rltb. destruct (Rlt_dec _ _) as [_|N]; [|exfalso; apply N; lra]. f_equal. lra. }
  refine (conj eq_refl (conj case_proper (conj eq_refl (conj h_bounds (conj O _))))). intros devfun [= <-]. apply (normal_symmetric (fun _ => 0) 1); [lra|intros; lra].
Qed.

(** * Importance sampling *)
Lemma h_mirrored e : lfun_IS (fun _ => hR) (fun _ => hC) (fun _ => 19 / 16) [[e]] 1 hfam case_h case_hr [1; hb] [- (1 / 4)] hP =
  lfun_IS (fun _ => hR) (fun _ => hC) (fun _ => 19 / 16) [[-1 * e]] 1 hfam case_h case_hr [-1; hb] [1 / 4] hP.
Proof.
  pose proof (C71_importance_main hfam 1 case_h case_hr [0] [1] [-1] [1] [hb] [-1] (fun _ => hR) (fun _ => hC) (fun _ => 19 / 16) [1 / 4] hP hP [[e]] 1
    (h_fits (-1) hb) eq_refl (h_mirror hb) h_routines h_routines (one_flipped (-1) (19 / 16) (or_intror eq_refl)) eq_refl ltac:(lia)
    (conj eq_refl (fun row H => match H with or_introl E => eq_ind [e] (fun r => length r = 1%nat) eq_refl row E | or_intror F => False_ind _ F end))) as M.
  unfold flip, flip_rows in M. cbn [combine map fst snd app] in M. replace (-1 * (1 / 4)) with (- (1 / 4)) in M by ring. exact M.
Qed.
Definition h_centre (t : R) : R := if Req_EM_T t 1 then - (1 / 4) else if Req_EM_T t (-1) then 1 / 4 else 0.
Lemma h_centre_odd t : h_centre (- t) = - h_centre t.
Proof. unfold h_centre. destruct (Req_EM_T (- t) 1), (Req_EM_T t 1), (Req_EM_T (- t) (-1)), (Req_EM_T t (-1)); lra. Qed.
Lemma natural_1 : natural 1 = Ok 1%nat.
Proof.
  unfold natural. assert (E : Int_part 1 = 1%Z).
  { destruct (base_Int_part 1) as [B1 B2]. assert (L1 : (Int_part 1 <= 1)%Z) by (apply le_IZR; lra). assert (L2 : (0 < Int_part 1)%Z) by (apply lt_IZR; lra). lia. }
  rewrite E. unfold Reqb. change (Z.to_nat 1) with 1%nat. cbn [INR]. destruct (Req_EM_T 1 1); [reflexivity|contradiction].
Qed.
Lemma C76_importance_refuted_main : exists X f lfun con l0 l, descends (x_optim X) /\
  glmm X simple_formula [] [] "binomial" "logit" ["IS"] [("nIS", 1)] [] (Some [-1; hb]) = Ok (GlmmFit f lfun case_h "IS" con None false) /\
  proper 1 case_h /\ mo_re _ case_h = Some case_hr /\ bounds_fit case_hr /\
  (forall devfun, x_devfun X case_h case_hr = Ok devfun -> symmetric (x_solve2 X) 1 case_h case_hr devfun) /\
  lfun [-1; hb] = Ok l0 /\ lfun (ft_estim f) = Ok l /\ l < l0.
Proof.
  assert (G : forall e, -1 <= e <= 1 -> forall l0 l, lfun_IS (fun _ => hR) (fun _ => hC) (fun _ => 19 / 16) [[e]] 1 hfam case_h case_hr [-1; hb] [1 / 4] hP = Ok l0 ->
    lfun_IS (fun _ => hR) (fun _ => hC) (fun _ => 19 / 16) [[e]] 1 hfam case_h case_hr [1; hb] [- (1 / 4)] hP = Ok l ->
    exists f lfun con, glmm (case_X (normal_dev h_centre (19 / 16)) [[e]]) simple_formula [] [] "binomial" "logit" ["IS"] [("nIS", 1)] [] (Some [-1; hb]) = Ok (GlmmFit f lfun case_h "IS" con None false) /\
      lfun [-1; hb] = Ok l0 /\ lfun (ft_estim f) = Ok l).
  { intros e He l0 l V0 V. set (X := case_X (normal_dev h_centre (19 / 16)) [[e]]). destruct (C39_main [("nIS", 1)] "IS") as (con & u & v & E & _ & B & _ & _ & C & _); [cbn; tauto|].
    pose proof (B "nIS" 1 eq_refl ltac:(intros [[=] _]) ltac:(discriminate)) as NI.
    assert (L : exists lf, find_lfun_glmm_internal X "binomial" "logit" case_h case_hr (normal_dev h_centre (19 / 16)) "IS" con = Ok lf /\ lf [-1; hb] = Ok l0 /\ lf [1; hb] = Ok l).
    { eexists. split; [unfold find_lfun_glmm_internal; cbn [String.eqb Ascii.eqb Bool.eqb]; rewrite NI; cbn [needed bind]; unfold find_lfun_IS; rewrite natural_1; reflexivity|].
      split; unfold normal_dev; cbn [bind nth]; unfold h_centre.
      - destruct (Req_EM_T (-1) 1); [lra|]. destruct (Req_EM_T (-1) (-1)); [exact V0|lra].
      - destruct (Req_EM_T 1 1); [exact V|lra]. }
    destruct L as (lf & L & L0 & L1).
    assert (OP : optimize_glmm stay (fun _ => Ok [[1; 0]; [0; 1]]) lf (mo_p _ case_h) (length (rt_theta _ case_hr)) (Some [-1; hb]) = Ok ([-1; hb], mscale 2 [[1; 0]; [0; 1]])).
    { apply (stay_optimize _ _ _ _ _ [-1; hb] l0); [reflexivity|cbn; lia|reflexivity| |exact L0]. pose proof ln3_bounds. intros x [<-|[<-|[]]]; apply Rabs_le; unfold hb; lra. }
    assert (Z : forall b, In b (rt_lower _ case_hr) -> b = Zero) by (intros b [<-|[]]; reflexivity).
    eexists; exists lf, con. split.
    - refine (proj1 (glmm_run X simple_formula [] [] "binomial" "logit" "IS" [("nIS", 1)] [] (Some [-1; hb]) con (u, v) case_h case_hr (normal_dev h_centre (19 / 16)) lf _ _
        (List.Forall_nil _) E (simple_frame (normal_dev h_centre (19 / 16)) [[e]] "binomial" [] [] _) eq_refl eq_refl L OP (C _) Z) eq_refl); discriminate.
    - split; [exact L0|]. cbn [ft_estim make_fit fst]. refine (eq_trans (f_equal lf h_reported) L1). }
  assert (SY : forall e devfun, x_devfun (case_X (normal_dev h_centre (19 / 16)) [[e]]) case_h case_hr = Ok devfun -> symmetric divide 1 case_h case_hr devfun)
    by (intros e devfun [= <-]; apply normal_symmetric; [lra|exact h_centre_odd]).
  destruct C71_importance_refuted_main as (v & v' & V & V' & N).
  destruct (Rlt_dec v' v) as [L|L].
  - destruct (G 1 ltac:(lra) v v' V V') as (f & lf & con & H & L0 & L1). exists (case_X (normal_dev h_centre (19 / 16)) [[1]]), f, lf, con, v, v'.
    exact (conj stay_descends (conj H (conj case_proper (conj eq_refl (conj h_bounds (conj (SY 1) (conj L0 (conj L1 L)))))))).
  - pose proof (h_mirrored 1) as M1. pose proof (h_mirrored (-1)) as M2. replace (-1 * -1) with 1 in M2 by ring. replace (-1 * 1) with (-1) in M1 by ring. rewrite V in M2. rewrite V' in M1.
    destruct (G (-1) ltac:(lra) v' v (eq_sym M1) M2) as (f & lf & con & H & L0 & L1). exists (case_X (normal_dev h_centre (19 / 16)) [[-1]]), f, lf, con, v', v.
    refine (conj stay_descends (conj H (conj case_proper (conj eq_refl (conj h_bounds (conj (SY (-1)) (conj L0 (conj L1 _)))))))). lra.
Qed.

Lemma options_case_main : same_options "Laplace" [("nAGQ", 7); ("order", 2); ("check_Laplace", 1)] [("check_Laplace", 1); ("order", 2)] /\
  ~ same_options "Laplace" [("order", 2)] [("order", 1)].
Proof.
  split.
  - intros name I. cbn in I. destruct I as [<-|[<-|[<-|[]]]]; reflexivity.
  - intros H. specialize (H "order" (or_introl eq_refl)). cbn in H. injection H. lra.
Qed.
Lemma weights_case_main : check_weights [2; -1] = Ok tt /\ check_weights [2; 1 / 2] = Throw RuntimeError.
Proof.
  split.
  - apply (proj1 (weights_main _)). repeat constructor; [exists 2%Z|exists (-1)%Z]; rewrite Rminus_diag_eq by reflexivity; rewrite Rabs_R0; lra.
  - apply (proj2 (weights_main _)). intros F. inversion F as [|? ? _ F1]. inversion F1 as [|? ? [z Hz] _]. subst. clear -Hz. apply Rabs_def2 in Hz.
    assert (L1 : (z < 1)%Z) by (apply lt_IZR; lra). assert (L2 : (0 < z)%Z) by (apply lt_IZR; lra). lia.
Qed.

(** A fit with the check. *)
Lemma simple_epsilon : exists v, find_epsilon_1 divide "binomial" "logit" [1 / 2; 0] case_h case_hr [0] [[1]] = Ok v.
Proof.
  destruct (C52_second_order_main divide "binomial" "logit" Logit logistic 1 case_h case_hr [0] [1] [1 / 2] [0] [[1]] [[/ 1]] [0] eq_refl) as [(f1 & f2 & f3 & f4 & D) E].
  - left. split; [reflexivity|intros t; reflexivity].
  - apply h_fits.
  - apply divide_solves. lra.
  - apply one_inverse. lra.
  - reflexivity.
  - intros [|k] Hk; [|lia]. rewrite h_predictor. replace (0 + 1 / 2 * 0) with 0 by ring. unfold logistic, tiny. rewrite Ropp_0, exp_0. lra.
  - eexists. exact (E f1 f2 f3 f4 D).
Qed.
Lemma C76_check_case_main : exists X f lfun con d, descends (x_optim X) /\
  glmm X simple_formula [] [] "binomial" "logit" ["Laplace"] [("check_Laplace", 1)] [] None = Ok (GlmmFit f lfun case_h "Laplace" con (Some d) true) /\ d = 2 /\
  used "divergence_threshold" (1 / 10) [("check_Laplace", 1)] = 1 / 10.
Proof.
  exists (case_X case_dev []). destruct (C39_main [("check_Laplace", 1)] "Laplace") as (con & u & v & E & _ & _ & D & _ & _ & C & _); [now left|].
  pose proof (D "order" eq_refl (or_introl eq_refl) ltac:(discriminate)) as O. pose proof (D "divergence_threshold" eq_refl (or_intror (or_intror (or_introl eq_refl))) ltac:(discriminate)) as T.
  destruct (C eq_refl) as (order & O' & _ & C2). rewrite O in O'. injection O' as <-. specialize (C2 (Rle_refl 1)). change (lookup "check_Laplace" con = Some 1) in C2.
  destruct (laplace_lfun (case_X case_dev []) "binomial" "logit" case_h case_hr con O) as (lf & L & V).
  assert (OP : optimize_glmm stay (fun _ => Ok [[1; 0]; [0; 1]]) lf (mo_p _ case_h) (length (rt_theta _ case_hr)) None = Ok ([1 / 2; 0], mscale 2 [[1; 0]; [0; 1]]))
    by (apply (stay_optimize _ _ _ _ _ [1 / 2; 0] 0); [reflexivity|cbn; lia|reflexivity|exact half_start|apply V]).
  assert (Z : forall b, In b (rt_lower _ case_hr) -> b = Zero) by (intros b [<-|[]]; reflexivity).
  assert (N1 : 1 <> 0) by lra. assert (NG : "binomial" <> "gaussian") by discriminate. destruct simple_epsilon as (ep & EP).
  assert (LD : laplace_divergence (case_X case_dev []) "binomial" "logit" case_h case_hr case_dev ([1 / 2; 0], mscale 2 [[1; 0]; [0; 1]]) = Ok 2).
  { unfold laplace_divergence. cbn [case_X x_grad x_solve2 fst snd]. unfold case_dev, normal_dev. cbn [bind]. rewrite EP. cbn [bind map]. f_equal.
    rewrite (divergence_sum 2) by (reflexivity || (split; [reflexivity|intros [|[|i]] Hi; (reflexivity || lia)])). unfold sumR, MatrixSpec.entry, mscale, vscale. cbn. lra. }
  pose proof (proj2 (proj2 (glmm_run (case_X case_dev []) simple_formula [] [] "binomial" "logit" "Laplace" [("check_Laplace", 1)] [] None con (u, v) case_h case_hr case_dev lf _ _
      (List.Forall_nil _) E (simple_frame case_dev [] "binomial" [] [] NG) eq_refl eq_refl L OP C2 Z)) N1 _ _ LD T) as H.
  assert (EX : exceeds 2 (documented_default "divergence_threshold") = true) by (unfold exceeds; cbn; destruct (Rlt_dec _ _); [reflexivity|lra]).
  rewrite EX in H. eexists; exists lf, con, 2. split; [exact stay_descends|]. split; [exact H|]. split; reflexivity.
Qed.
