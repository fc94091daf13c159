(** Lemmas for C84: simulation of the program with an environment by the one without. *)
From Coq Require Import String List ZArith Arith Reals Bool.
From Verif Require Import Model.Base Model.Family Model.GLMM Model.SplitFrame Model.Vectors Model.Frames Model.Indexing Model.Subexpr Model.FindIndices Model.Flatten
  Model.SplitFormula Model.FindModfr Model.MultiNormal Model.IS Model.HOL Model.LfunSR Model.Control Model.Fit Model.NormalApprox Model.Glmm Model.Environment
  Spec.Numbers Spec.ControlSpec Spec.EnvironmentSpec Proofs.ControlMain.
Import ListNotations.
Local Open Scope string_scope.
Local Open Scope R_scope.
Notation length := List.length.

Section Sim.
Context (V : lme4).
Definition sim {A} (inv : env V -> Prop) (c : stateful V A) (o : outcome A) : Prop :=
  forall e, inv e -> fst (c e) = o /\ inv (snd (c e)).
Lemma sim_lift {A} inv (o : outcome A) : sim inv (lift V o) o.
Proof. intros e H. now split. Qed.
Lemma sim_andthen {A B} inv (c : stateful V A) o (f : A -> stateful V B) g :
  sim inv c o -> (forall a, o = Ok a -> sim inv (f a) (g a)) -> sim inv (andthen V c f) (bind o g).
Proof.
  intros H F e I. destruct (H e I) as [H1 H2]. unfold andthen. destruct (c e) as [o' e']. cbn [fst snd] in H1, H2. subst o'.
  destruct o as [a| | |]; cbn [bind]; try (now split). exact (F a eq_refl e' H2).
Qed.
Lemma sim_eq {A} inv (c : stateful V A) o o' : o = o' -> sim inv c o -> sim inv c o'.
Proof. now intros ->. Qed.
Lemma sim_ask {B C} inv (t : asks B C) f h : (forall x, sim inv (f x) (h x)) -> sim inv (ask_env V t f) (answers h t).
Proof.
  intros F. induction t as [c|x k IH]; cbn [ask_env answers]; [apply sim_lift|]. apply sim_andthen; [apply F|]. intros b _. apply IH.
Qed.
Lemma sim_function {A} (inv : env V -> Prop) (g : list R -> stateful V A) (f : list R -> outcome A) e : inv e -> (forall x, sim inv (g x) (f x)) -> function_of g e f.
Proof.
  intros I H xs. revert e I. induction xs as [|y xs IH]; intros e I x; [exact (proj1 (H x e I))|]. cbn [after fold_left].
  exact (IH (snd (g y e)) (proj2 (H y e I)) x).
Qed.

Section Devfun.
Context (inv : env V -> Prop) (dv : list R -> outcome (R * rvec * rmat)) (HC : computes V inv dv).
Lemma sim_devfun x : sim inv (devfun V x) (bind (dv x) (fun t => Ok (fst (fst t)))).
Proof.
  intros e I. unfold devfun. destruct (HC e x I) as [H1 H2]. split; [|exact H1]. destruct (dv x) as [[[d mean] P]|[]| |]; try contradiction.
  - exact (proj1 H2).
  - exact H2.
Qed.
Lemma sim_approx x : sim inv (compute_normal_approx_env V x) (bind (dv x) (fun t => let '(d, mean, P) := t in Ok (mkApprox (- d / 2) mean P))).
Proof.
  intros e I. unfold compute_normal_approx_env, andthen, devfun. destruct (HC e x I) as [H1 H2]. destruct (v_call V e x) as [o e']. cbn [fst snd] in H1, H2.
  destruct (dv x) as [[[d mean] P]|[]| |]; try contradiction.
  - destruct H2 as (-> & <- & <-). cbn [bind fst snd]. split; [reflexivity|exact H1].
  - subst o. cbn [bind fst snd]. now split.
Qed.
End Devfun.

Context (X : externals) (family link : string) (m : modfr Rnum) (r : retrms Rnum).
Section One.
Context (inv : env V -> Prop) (dv : list R -> outcome (R * rvec * rmat)) (HC : computes V inv dv).
Definition epsilon_pure (x : list R) : outcome R :=
  d <- dv x ;; let '(_, mean, precision) := d in find_epsilon_1 (x_solve2 X) family link x m r mean precision.
Lemma sim_epsilon x : sim inv (find_epsilon_1_env V X family link m r x) (epsilon_pure x).
Proof.
  unfold find_epsilon_1_env, epsilon_pure. refine (sim_eq _ _ _ _ _ (sim_andthen inv _ _ _ (fun a => find_epsilon_1 (x_solve2 X) family link x m r (na_mean a) (na_precision a)) (sim_approx inv dv HC x) _)).
  - destruct (dv x) as [[[d mean] P]| | |]; reflexivity.
  - intros a _. apply sim_lift.
Qed.
Lemma laplace_agrees order : match find_lfun_Laplace_env V X family link m r order with
  | Ok lf => exists lfun, find_lfun_Laplace X family link m r dv order = Ok lfun /\ forall x, sim inv (lf x) (lfun x)
  | err => same_error err (find_lfun_Laplace X family link m r dv order) end.
Proof.
  unfold find_lfun_Laplace_env, find_lfun_Laplace. destruct (Reqb order 1) eqn:E1.
  - cbn [bind]. eexists. split; [reflexivity|]. intros x.
    refine (sim_eq _ _ _ _ _ (sim_andthen inv _ _ _ (fun d => Ok (- d / 2)) (sim_devfun inv dv HC x) _)); [|intros a _; apply sim_lift].
    destruct (dv x) as [[[d mean] P]| | |]; cbn [bind fst snd]; try reflexivity. unfold lfun_Laplace. now rewrite E1.
  - destruct (check_if_order_implemented family link order) as [[]| | |] eqn:E2; cbn [bind]; try exact I; try reflexivity.
    destruct (Reqb order 2) eqn:E3; cbn [bind]; [|reflexivity]. eexists. split; [reflexivity|]. intros x.
    refine (sim_eq _ _ _ _ _ (sim_andthen inv _ _ _ (fun eps => d <- dv x ;; Ok (- fst (fst d) / 2 + eps)) (sim_epsilon x) _)).
    + unfold epsilon_pure. destruct (dv x) as [[[d mean] P]| | |]; cbn [bind fst snd]; try reflexivity. unfold lfun_Laplace. rewrite E1, E2, E3. cbn [bind]. reflexivity.
    + intros eps _. refine (sim_eq _ _ _ _ _ (sim_andthen inv _ _ _ (fun d => Ok (- d / 2 + eps)) (sim_devfun inv dv HC x) _)); [|intros a _; apply sim_lift].
      destruct (dv x) as [[[d mean] P]| | |]; reflexivity.
Qed.
Lemma IS_agrees nIS : match find_lfun_IS_env V X family link m r nIS with
  | Ok lf => exists lfun, find_lfun_IS X family link m r dv nIS = Ok lfun /\ forall x, sim inv (lf x) (lfun x)
  | err => same_error err (find_lfun_IS X family link m r dv nIS) end.
Proof.
  unfold find_lfun_IS_env, find_lfun_IS. destruct (natural nIS) as [k| | |]; cbn [bind]; try exact I; try reflexivity.
  eexists. split; [reflexivity|]. intros x.
  refine (sim_eq _ _ _ _ _ (sim_andthen inv _ _ _ (fun a => lfun_IS _ _ _ _ _ _ _ _ _ (na_mean a) (na_precision a)) (sim_approx inv dv HC x) _)); [|intros a _; apply sim_lift].
  destruct (dv x) as [[[d mean] P]| | |]; reflexivity.
Qed.
Lemma SR_agrees nSL nAGQ : match find_lfun_SR_env V X family link m r nSL nAGQ with
  | Ok lf => exists lfun, the_lfun_SR X family link m r dv nSL nAGQ = Ok lfun /\ forall x, sim inv (lf x) (lfun x)
  | err => same_error err (the_lfun_SR X family link m r dv nSL nAGQ) end.
Proof.
  unfold find_lfun_SR_env, the_lfun_SR. destruct (natural nSL) as [k| | |]; cbn [bind]; try exact I; try reflexivity.
  match goal with |- match bind ?o _ with _ => _ end => destruct o as [s| | |] eqn:ES end; cbn [bind]; try exact I; try reflexivity.
  eexists. split; [reflexivity|]. intros x. destruct (Nat.eqb (length x) (sr_n_fixed _ s + sr_n_random _ s)) eqn:EL; cbn [negb].
  - refine (sim_eq _ _ _ _ _ (sim_andthen inv _ _ _ (fun a => lfun_SR _ _ _ _ _ _ _ _ _
        (fun _ => (l_laplace a, na_mean a, fun i j => nth (Z.to_nat j) (nth (Z.to_nat i) (na_precision a) []) 0)) s x) (sim_approx inv dv HC x) _)); [|intros a _; apply sim_lift].
    destruct (dv x) as [[[d mean] P]| | |]; reflexivity.
  - intros e I. unfold lift. cbn [fst snd]. split; [|exact I]. destruct (HC e x I) as [_ H2]. destruct (dv x) as [[[d mean] P]|[]| |]; try contradiction; cbn [bind]; [|reflexivity].
    unfold lfun_SR. rewrite EL. reflexivity.
Qed.
Lemma divergence_agrees gradT opt : (forall f x, x_grad X f x = answers f (gradT x)) ->
  sim inv (laplace_divergence_env V X family link m r gradT opt) (laplace_divergence X family link m r dv opt).
Proof.
  intros HG. unfold laplace_divergence_env, laplace_divergence. rewrite HG.
  apply (sim_andthen inv _ _ _ (fun delta_1 => Ok (find_laplace_divergence delta_1 (snd opt)))); [|intros a _; apply sim_lift].
  apply sim_ask. intros x. apply sim_epsilon.
Qed.
End One.

(** The optimization. *)
Lemma ext_agrees inv lf lfun p_theta param stop big : (forall x, sim inv (lf x) (lfun x)) ->
  sim inv (devfun_ext_env V lf p_theta param stop big) (devfun_ext lfun p_theta param stop big).
Proof.
  intros H. unfold devfun_ext_env, devfun_ext.
  apply (sim_andthen inv _ _ _ (fun out : bool => if out then Ok big else _)); [apply sim_lift|].
  intros [|] _; [apply sim_lift|]. intros e I. destruct (H param e I) as [H1 H2]. destruct (lf param e) as [o e']. cbn [fst snd] in H1, H2. subst o.
  destruct (lfun param); cbn [fst snd]; (split; [|exact H2]); try reflexivity; destruct stop; reflexivity.
Qed.
Lemma ext_twice lfun p_theta param big d : devfun_ext lfun p_theta param true big = Ok d -> exists d', devfun_ext lfun p_theta param false big = Ok d'.
Proof.
  unfold devfun_ext. destruct (outside p_theta param) as [[|]| | |]; cbn [bind]; try discriminate; [eauto|]. destruct (lfun param); try discriminate. eauto.
Qed.
Lemma optimize_agrees inv optimT lf lfun p_beta p_theta prev : (forall f x, x_optim X f x = answers f (optimT x)) -> (forall x, sim inv (lf x) (lfun x)) ->
  sim inv (optimize_glmm_env V X optimT lf p_beta p_theta prev) (optimize_glmm (x_optim X) (x_inv X) lfun p_beta p_theta prev).
Proof.
  intros HO H. unfold optimize_glmm_env, optimize_glmm.
  apply sim_andthen; [apply ext_agrees, H|]. intros d0 E0. cbv beta.
  destruct (ext_twice _ _ _ _ _ E0) as [d1 E1].
  refine (sim_eq _ _ _ _ _ (sim_andthen inv _ _ _ (fun _ => _) (ext_agrees inv lf lfun p_theta _ false Inf H) _)); [rewrite E1; cbn [bind]; reflexivity|].
  intros d _. rewrite HO. apply sim_andthen.
  - apply sim_ask. intros x. apply ext_agrees, H.
  - intros [estim hess] _. cbn [fst snd]. apply sim_andthen; [apply sim_lift|]. intros a _. apply sim_lift.
Qed.

(** Which function the environment has after find_lfun_glmm_internal. *)
Lemma internal_agrees meth con e : v_make V m r = Ok e ->
  forall dv (inv : env V -> Prop), x_devfun X m r = Ok dv -> inv e -> computes V inv dv ->
  (forall k, match v_update V r k e with
             | Ok e' => exists g (inv : env V -> Prop), x_AGQ X m r k = Ok g /\ inv e' /\ computes_value V inv g
             | err => same_error err (x_AGQ X m r k)
             end) ->
  match fst (find_lfun_glmm_internal_env V X family link m r meth con e) with
  | Ok lf => exists lfun (inv' : env V -> Prop), find_lfun_glmm_internal X family link m r dv meth con = Ok lfun /\
      inv' (snd (find_lfun_glmm_internal_env V X family link m r meth con e)) /\ (forall x, sim inv' (lf x) (lfun x)) /\
      (meth = "Laplace" -> computes V inv' dv)
  | err => same_error err (find_lfun_glmm_internal X family link m r dv meth con)
  end.
Proof.
  intros HM dv inv HD HI HC HU. unfold find_lfun_glmm_internal_env, find_lfun_glmm_internal. destruct (String.eqb_spec meth "Laplace") as [EM|NM].
  - destruct (needed (lookup "order" con)) as [order| | |]; cbn [bind lift fst snd]; try exact I; try reflexivity.
    pose proof (laplace_agrees inv dv HC order) as L. destruct (find_lfun_Laplace_env V X family link m r order) as [lf| | |]; try exact L.
    destruct L as (lfun & L1 & L2). exists lfun, inv. split; [exact L1|]. split; [exact HI|]. split; [exact L2|]. intros _. exact HC.
  - destruct (String.eqb_spec meth "AGQ") as [EA|NA].
    + unfold andthen, lift. destruct (needed (lookup "nAGQ" con)) as [k| | |]; cbn [bind fst snd]; try exact I; try reflexivity. specialize (HU k). unfold find_lfun_AGQ_env, find_lfun_AGQ.
      destruct (v_update V r k e) as [e'|x| |]; cbn [fst snd].
      * destruct HU as (g & inv' & G1 & G2 & G3). rewrite G1. cbn [bind]. eexists. exists inv'. split; [reflexivity|]. split; [exact G2|]. split; [|intros ->; discriminate EA].
        intros x. apply (sim_andthen inv' _ _ _ (fun d => Ok (- d / 2))); [|intros a _; apply sim_lift]. intros e1 I1. destruct (G3 e1 x I1). split; assumption.
      * destruct (x_AGQ X m r k); try contradiction. exact HU.
      * destruct (x_AGQ X m r k); try contradiction. exact I.
      * destruct (x_AGQ X m r k); try contradiction. exact I.
    + destruct (String.eqb_spec meth "SR") as [ESR|NSR].
      * destruct (needed (lookup "nSL" con)) as [nSL| | |]; cbn [bind lift fst snd]; try exact I; try reflexivity.
        destruct (needed (lookup "nAGQ" con)) as [nAGQ| | |]; cbn [bind lift fst snd]; try exact I; try reflexivity.
        pose proof (SR_agrees inv dv HC nSL nAGQ) as L. destruct (find_lfun_SR_env V X family link m r nSL nAGQ) as [lf| | |]; try exact L.
        destruct L as (lfun & L1 & L2). exists lfun, inv. split; [exact L1|]. split; [exact HI|]. split; [exact L2|]. intros ->; now elim NM.
      * destruct (String.eqb_spec meth "IS") as [EIS|NIS]; [|reflexivity].
        destruct (needed (lookup "nIS" con)) as [nIS| | |]; cbn [bind lift fst snd]; try exact I; try reflexivity.
        pose proof (IS_agrees inv dv HC nIS) as L. destruct (find_lfun_IS_env V X family link m r nIS) as [lf| | |]; try exact L.
        destruct L as (lfun & L1 & L2). exists lfun, inv. split; [exact L1|]. split; [exact HI|]. split; [exact L2|]. intros ->; now elim NM.
Qed.
End Sim.

Lemma control_check control meth con w : find_control_with_defaults control [meth] = Ok (con, w) -> meth <> "Laplace" -> lookup "check_Laplace" con = Some 0.
Proof.
  intros H N. assert (M : In meth methods).
  { unfold find_control_with_defaults, defaults in H. unfold methods. cbn [In].
    destruct (String.eqb_spec meth "Laplace"); [subst; tauto|]. destruct (String.eqb_spec meth "AGQ"); [subst; tauto|].
    destruct (String.eqb_spec meth "SR"); [subst; tauto|]. destruct (String.eqb_spec meth "IS"); [subst; tauto|discriminate H]. }
  destruct (C39_main control meth M) as (con' & u & nn & E & _ & Q). rewrite H in E. injection E as -> _.
  destruct Q as (_ & _ & _ & Q & _). exact (Q N).
Qed.

Lemma same_error_eq {A B} (o : outcome A) (o' : outcome B) : same_error o o' ->
  match o with Ok _ => False | Throw x => o' = Throw x | UB => o' = UB | NoFuel => o' = NoFuel end.
Proof. destruct o, o'; cbn; try contradiction; try reflexivity. now intros ->. Qed.

Lemma glmm_agrees V X optimT gradT formula subforms data family link method control weights prev : implements V X ->
  (forall f x, x_optim X f x = answers f (optimT x)) -> (forall f x, x_grad X f x = answers f (gradT x)) ->
  agrees_fit (glmm_env V X optimT gradT formula subforms data family link method control weights prev)
             (glmm X formula subforms data family link method control weights prev).
Proof.
  intros HV HO HG. unfold glmm_env, glmm. destruct (check_weights weights) as [[]| | |]; cbn [bind agrees_fit]; try reflexivity.
  destruct (find_control_with_defaults control method) as [[con w]| | |] eqn:EC; cbn [bind agrees_fit]; try reflexivity. cbn [fst].
  destruct (find_modfr_glmm _ _ _ _ formula subforms data) as [m| | |]; cbn [bind agrees_fit]; try reflexivity.
  destruct (mo_re _ m) as [r|]; [|reflexivity]. destruct method as [|meth [|]]; try reflexivity.
  specialize (HV m r). destruct (v_make V m r) as [e0| | |] eqn:EM; cbn [bind agrees_fit];
    try (apply same_error_eq in HV; rewrite HV; reflexivity).
  destruct HV as ((dv & inv & HD & HI & HC) & HU). rewrite HD. cbn [bind].
  pose proof (internal_agrees V X family link m r meth con e0 EM dv inv HD HI HC HU) as L.
  unfold andthen at 1. destruct (find_lfun_glmm_internal_env V X family link m r meth con e0) as [o e1]. cbn [fst snd] in L.
  destruct o as [lf|x| |]; cbn [bind agrees_fit]; try (apply same_error_eq in L; rewrite L; reflexivity).
  destruct L as (lfun & inv' & L1 & L2 & L3 & L4). rewrite L1. cbn [bind].
  set (final := fun opt : list R * list (list R) => fun du : option R * bool => 
     if forallb (fun b => match b with Zero => true | MinusInf => false end) (rt_lower _ r) then
          GlmmFitEnv V (make_fit (rt_lower _ r) (length (rt_theta _ r)) (mo_p _ m) (x_names_theta X m) (x_names_beta X m) opt) lf m meth con (fst du) (snd du)
        else OptListEnv V opt (fst du) (snd du)).
  set (pure := opt <- optimize_glmm (x_optim X) (x_inv X) lfun (mo_p _ m) (length (rt_theta _ r)) prev ;;
      check_Laplace <- needed (lookup "check_Laplace" con) ;;
      du <- (if Reqb check_Laplace 0 then Ok (None, false)
             else
               d <- laplace_divergence X family link m r dv opt ;;
               threshold <- needed (lookup "divergence_threshold" con) ;;
               Ok (Some d, exceeds d threshold)) ;;
      Ok (final opt du)).
  match goal with |- agrees_fit (let (o, e) := ?c e1 in _) _ => assert (S : sim V inv' c pure) end.
  { unfold pure. apply sim_andthen; [exact (optimize_agrees V X inv' optimT lf lfun _ _ prev HO L3)|]. intros opt _.
    apply sim_andthen; [apply sim_lift|]. intros c Ec. apply sim_andthen.
    - destruct (Reqb c 0) eqn:R0; [apply sim_lift|]. assert (EL : meth = "Laplace").
      { destruct (string_dec meth "Laplace") as [E|N]; [exact E|]. exfalso. rewrite (control_check _ _ _ _ EC N) in Ec. cbn [needed] in Ec. injection Ec as <-.
        unfold Reqb in R0. destruct (Req_EM_T 0 0) as [_|N0]; [discriminate R0|now apply N0]. }
      apply sim_andthen; [exact (divergence_agrees V X family link m r inv' dv (L4 EL) gradT opt HG)|]. intros d _.
      apply sim_andthen; [apply sim_lift|]. intros t _. apply sim_lift.
    - intros du _. unfold final. destruct (forallb _ _); apply sim_lift. }
  destruct (S e1 L2) as [S1 S2]. match goal with |- agrees_fit (let (o, e) := ?c e1 in _) _ => destruct (c e1) as [o e2] end. cbn [fst snd] in S1, S2. subst o. clear S.
  unfold pure. clear pure. destruct (optimize_glmm _ _ lfun _ _ prev) as [opt| | |]; cbn [bind agrees_fit]; try reflexivity.
  destruct (needed (lookup "check_Laplace" con)) as [c| | |]; cbn [bind agrees_fit]; try reflexivity.
  match goal with |- agrees_fit (bind (bind ?o _) _) _ => destruct o as [du| | |] end; cbn [bind agrees_fit]; try reflexivity.
  unfold final. destruct (forallb _ _); [|reflexivity]. exists lfun. split; [reflexivity|]. exact (sim_function V inv' lf lfun e2 S2 L3).
Qed.

Lemma lfun_agrees V X family link m method control : implements V X ->
  match find_lfun_glmm_env V X family link m method control with
  | Ok (lf, e) => exists lfun, find_lfun_glmm X family link m method control = Ok lfun /\ function_of lf e lfun
  | err => same_error err (find_lfun_glmm X family link m method control)
  end.
Proof.
  intros HV. unfold find_lfun_glmm_env, find_lfun_glmm. destruct (mo_re _ m) as [r|]; [|reflexivity].
  specialize (HV m r). destruct (v_make V m r) as [e0| | |] eqn:EM; cbn [bind];
    try (apply same_error_eq in HV; rewrite HV; cbn [bind]; try exact I; reflexivity).
  destruct HV as ((dv & inv & HD & HI & HC) & HU). rewrite HD. cbn [bind].
  destruct (find_control_with_defaults control method) as [[con w]| | |] eqn:EC; cbn [bind]; try exact I; try reflexivity. cbn [fst].
  destruct method as [|meth [|]]; try reflexivity.
  pose proof (internal_agrees V X family link m r meth con e0 EM dv inv HD HI HC HU) as L.
  destruct (find_lfun_glmm_internal_env V X family link m r meth con e0) as [o e1]. cbn [fst snd] in L.
  destruct o as [lf|x| |]; cbn [bind]; try exact L.
  destruct L as (lfun & inv' & L1 & L2 & L3 & _). exists lfun. split; [exact L1|]. exact (sim_function V inv' lf lfun e1 L2 L3).
Qed.
