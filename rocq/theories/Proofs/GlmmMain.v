(** glmm: what is accepted and what is returned. *)
From Coq Require Import String List ZArith Arith Reals Bool Lia Lra.
From Verif Require Import Model.Base Model.Family Model.GLMM Model.SplitFrame Model.Vectors Model.Frames Model.Indexing Model.Subexpr Model.FindIndices Model.Flatten
  Model.SplitFormula Model.FindModfr Model.MultiNormal Model.IS Model.HOL Model.LfunSR Model.Control Model.Fit Model.Glmm
  Spec.Numbers Spec.GLMMSpec Spec.MatrixSpec Spec.FramesSpec Spec.ISSpec Spec.HOLSpec Spec.MirrorSpec Spec.ControlSpec Spec.FitSpec Spec.GlmmSpec
  Proofs.ListLemmas Proofs.ControlMain Proofs.FitMain Proofs.MirrorMain Proofs.MirrorCases Proofs.HOLMain Proofs.SubexprLemmas Proofs.GLMMLemmas.
Import ListNotations.
Local Open Scope string_scope.
Local Open Scope R_scope.
Notation length := List.length.

(** * Weights *)
Lemma tol_eq : tol = / 2 ^ 26.
Proof. unfold tol. f_equal. lra. Qed.
Lemma round_near w : near_integer w <-> Rltb (Rabs (w - round w)) tol = true.
Proof.
  rewrite tol_eq. unfold near_integer, Rltb, round. assert (T : / 2 ^ 26 < 1 / 2) by lra. set (t := / 2 ^ 26) in *. destruct (base_Int_part (w + 1 / 2)) as [B1 B2].
  split.
  - intros [z Hz]. destruct (Rlt_dec _ _) as [|N]; [reflexivity|]. exfalso. apply N. replace (Int_part (w + 1 / 2)) with z; [exact Hz|].
    apply Rabs_def2 in Hz. apply eq_sym. assert (L1 : (Int_part (w + 1 / 2) < z + 1)%Z) by (apply lt_IZR; rewrite plus_IZR; lra).
    assert (L2 : (z < Int_part (w + 1 / 2) + 1)%Z) by (apply lt_IZR; rewrite plus_IZR; lra). lia.
  - destruct (Rlt_dec _ _) as [L|]; [|discriminate]. intros _. now exists (Int_part (w + 1 / 2)).
Qed.
Lemma weights_main ws : (List.Forall near_integer ws -> check_weights ws = Ok tt) /\ (~ List.Forall near_integer ws -> check_weights ws = Throw RuntimeError).
Proof.
  unfold check_weights. assert (E : List.Forall near_integer ws <-> forallb (fun w => Rltb (Rabs (w - round w)) tol) ws = true).
  { rewrite forallb_forall, Forall_forall. split; intros H x Hx; apply round_near; now apply H. }
  destruct (forallb _ ws); split; try reflexivity; intros H; [exfalso; apply H, E; reflexivity|apply E in H; discriminate].
Qed.

Section X.
Variable X : externals.

(** * Inversion *)
Lemma glmm_inv formula subforms data family link method control weights prev res :
  glmm X formula subforms data family link method control weights prev = Ok res ->
  exists meth con w m r devfun lfun opt div un, List.Forall near_integer weights /\ method = [meth] /\ find_control_with_defaults control [meth] = Ok (con, w) /\
    find_modfr_glmm (x_other X) (parse_formula X family) (x_sub X) (x_sparse X) formula subforms data = Ok m /\ mo_re _ m = Some r /\
    x_devfun X m r = Ok devfun /\ find_lfun_glmm_internal X family link m r devfun meth con = Ok lfun /\
    optimize_glmm (x_optim X) (x_inv X) lfun (mo_p _ m) (length (rt_theta _ r)) prev = Ok opt /\
    (exists c, lookup "check_Laplace" con = Some c /\
      (c = 0 /\ div = None /\ un = false \/
       c <> 0 /\ exists d t, laplace_divergence X family link m r devfun opt = Ok d /\ lookup "divergence_threshold" con = Some t /\ div = Some d /\ un = exceeds d t)) /\
    res = if forallb (fun b => match b with Zero => true | MinusInf => false end) (rt_lower _ r) then
        GlmmFit (make_fit (rt_lower _ r) (length (rt_theta _ r)) (mo_p _ m) (x_names_theta X m) (x_names_beta X m) opt) lfun m meth con div un
      else OptList opt div un.
Proof.
  unfold glmm. intros H. apply bind_Ok in H. destruct H as ([] & W & H). apply bind_Ok in H. destruct H as ([con w] & C & H). cbn [fst] in H.
  apply bind_Ok in H. destruct H as (m & M & H). destruct (mo_re _ m) as [r|] eqn:R0; [|discriminate]. destruct method as [|meth [|]]; try discriminate.
  apply bind_Ok in H. destruct H as (dv & D & H). apply bind_Ok in H. destruct H as (lf & L & H). apply bind_Ok in H. destruct H as (opt & O & H).
  apply bind_Ok in H. destruct H as (c & CL & H). apply bind_Ok in H. destruct H as ([div un] & DU & H). cbn [fst snd] in H.
  exists meth, con, w, m, r, dv, lf, opt, div, un. refine (conj _ (conj eq_refl (conj C (conj M (conj R0 (conj D (conj L (conj O (conj _ _))))))))).
  - destruct (weights_main weights) as [_ N]. destruct (List.Forall_dec near_integer) with (l := weights) as [F|F]; [|exact F|].
    + intros x. destruct (Rltb (Rabs (x - round x)) tol) eqn:E; [left; now apply round_near|right; intros Q; apply round_near in Q; congruence].
    + rewrite (N F) in W. discriminate.
  - unfold needed in CL. destruct (lookup "check_Laplace" con) as [c'|]; [|discriminate]. injection CL as ->. exists c. split; [reflexivity|].
    unfold Reqb in DU. destruct (Req_EM_T c 0) as [E|E].
    + left. injection DU as <- <-. now split.
    + right. split; [exact E|]. apply bind_Ok in DU. destruct DU as (d & D1 & DU). apply bind_Ok in DU. destruct DU as (t & T & DU). injection DU as <- <-.
      unfold needed in T. destruct (lookup "divergence_threshold" con) as [t'|]; [|discriminate]. injection T as ->. now exists d, t.
  - destruct (forallb _ _); now injection H as <-.
Qed.

(** * Estimates *)
Lemma all_zero lower : forallb (fun b => match b with Zero => true | MinusInf => false end) lower = true <-> forall b, In b lower -> b = Zero.
Proof. rewrite forallb_forall. split; intros H b Hb; specialize (H b Hb); destruct b; try reflexivity; discriminate. Qed.
Lemma abs_eq x : abs Rnum x = Rabs x.
Proof. unfold abs. change (nltb Rnum x (nZ Rnum 0)) with (Rltb x 0). unfold Rltb, Rabs. destruct (Rlt_dec x 0) as [A|A], (Rcase_abs x) as [B|B]; try reflexivity; exfalso; [lra|exact (A B)]. Qed.
Lemma report_absolute lower p e : (forall b, In b lower -> b = Zero) -> absolute p e (report_estim Rnum lower p e).
Proof.
  intros Z. unfold report_estim. rewrite (proj2 (all_zero lower) Z). unfold absolute. split.
  - rewrite app_length, map_length, <- app_length, firstn_skipn. reflexivity.
  - intros i. pose (a := map Rabs (firstn p e)). assert (A : map (abs Rnum) (firstn p e) = a) by (apply map_ext; exact abs_eq).
    assert (N : length a = Nat.min p (length e)) by (unfold a; now rewrite map_length, firstn_length).
    refine (eq_trans (f_equal (fun l => nth i (l ++ skipn p e)%list 0) A) _). change (nth i (a ++ skipn p e)%list 0 = if (i <? p)%nat then Rabs (nth i e 0) else nth i e 0).
    destruct (Nat.ltb_spec i (length e)) as [L'|L'].
    + destruct (Nat.ltb_spec i p) as [L|L].
      * rewrite app_nth1 by lia. unfold a. rewrite <- Rabs_R0 at 1. rewrite map_nth. f_equal.
        rewrite <- (firstn_skipn p e) at 2. rewrite app_nth1; [reflexivity|rewrite firstn_length; lia].
      * rewrite app_nth2 by lia. rewrite <- (firstn_skipn p e) at 2. rewrite app_nth2; rewrite firstn_length; [|lia]. now rewrite N.
    + rewrite !(nth_overflow e) by lia. rewrite nth_overflow by (rewrite app_length, skipn_length; lia). rewrite Rabs_R0. now destruct (i <? p)%nat.
Qed.

Lemma C76_estimates_main formula subforms data family link method control weights prev f lfun m meth con div un :
  descends (x_optim X) -> glmm X formula subforms data family link method control weights prev = Ok (GlmmFit f lfun m meth con div un) ->
  (1 <= ntheta m)%nat -> (forall x, prev = Some x -> length x = (ntheta m + mo_p _ m)%nat) ->
  method = [meth] /\ find_lfun_glmm X family link m method control = Ok lfun /\
  length (ft_estim f) = (ntheta m + mo_p _ m)%nat /\ (forall i, (i < ntheta m)%nat -> 0 <= nth i (ft_estim f) 0 <= 5) /\
  (ft_Sigma f = None <-> exists i, (i < ntheta m)%nat /\ 49 / 10 < nth i (ft_estim f) 0) /\
  exists found l0 l, lfun (start_of (ntheta m) (mo_p _ m) prev) = Ok l0 /\ lfun found = Ok l /\ l0 <= l /\ absolute (ntheta m) found (ft_estim f).
Proof.
  intros HD H HT HP. apply glmm_inv in H. destruct H as (meth' & con' & w & m' & r & dv & lf & opt & div' & un' & W & E & C & M & R0 & D & L & O & DU & H).
  destruct (forallb _ (rt_lower _ r)) eqn:LZ; [|discriminate]. injection H; intros; subst meth' con' m' lf div' un'. clear H. subst f method.
  pose proof (proj1 (all_zero _) LZ) as LZ'. unfold ntheta in *. rewrite R0 in *. set (pt := length (rt_theta _ r)) in *. set (pb := mo_p _ m) in *.
  destruct opt as [e Sg].
  pose proof (C60_estimate_main (x_optim X) (x_inv X) HD lfun pb pt prev e Sg HT HP O _ eq_refl) as (EL & _ & EB & l0 & l & L0 & L1 & LL).
  set (f := make_fit _ _ _ _ _ _). assert (EA : absolute pt e (ft_estim f)) by (unfold f, make_fit; cbn [ft_estim fst]; apply report_absolute; exact LZ').
  assert (BX : forall i, (i < pt)%nat -> 0 <= nth i (ft_estim f) 0 <= 5).
  { intros i I. destruct EA as [_ EA]. rewrite EA. destruct (Nat.ltb_spec i pt) as [_|N]; [|lia]. split; [apply Rabs_pos|now apply EB]. }
  split; [reflexivity|]. split.
  { unfold find_lfun_glmm. rewrite R0, D. cbn [bind]. rewrite C. cbn [bind fst]. exact L. }
  split; [destruct EA as [EA _]; rewrite EA; exact EL|]. split; [exact BX|]. split.
  - assert (LF : length (ft_estim f) = (pt + pb)%nat) by (destruct EA as [EA _]; rewrite EA; exact EL).
    change (ft_Sigma f) with (if existsb (fun x => Rltb (49 / 10) x) (firstn pt (ft_estim f : list R)) then None else Some Sg). clear EA BX. generalize dependent (ft_estim f). clear f. intros x LF.
    assert (FN : forall i, (i < pt)%nat -> nth i (firstn pt x) 0 = nth i x 0).
    { intros i I. rewrite <- (firstn_skipn pt x) at 2. rewrite app_nth1; [reflexivity|rewrite firstn_length; lia]. }
    destruct (existsb (fun x => Rltb (49 / 10) x) (firstn pt x)) eqn:X0; split; try discriminate; try reflexivity.
    + intros _. apply existsb_exists in X0. destruct X0 as (y & I & G). apply (In_nth _ _ 0) in I. destruct I as (i & I & <-). rewrite firstn_length in I. exists i. split; [lia|].
      unfold Rltb in G. destruct (Rlt_dec _ _) as [G'|]; [|discriminate]. now rewrite <- FN by lia.
    + intros (i & I & G). exfalso. enough (T : existsb (fun x => Rltb (49 / 10) x) (firstn pt x) = true) by congruence.
      apply existsb_exists. exists (nth i (firstn pt x) 0). split; [apply nth_In; rewrite firstn_length; lia|]. rewrite FN by exact I.
      unfold Rltb. destruct (Rlt_dec _ _); [reflexivity|tauto].
  - exists e, l0, l. split; [exact L0|]. split; [exact L1|]. split; [exact LL|exact EA].
Qed.

(** * The loglikelihood at the estimates that are reported *)
Lemma Rnum_prefix (theta beta : list R) p : length theta = p -> firstn p (theta ++ beta) = theta /\ skipn p (theta ++ beta) = beta.
Proof. intros <-. split; [now rewrite firstn_app, firstn_all, Nat.sub_diag, firstn_O, app_nil_r|now rewrite skipn_app, skipn_all, Nat.sub_diag]. Qed.

(** The loglikelihood has no signs that the model does not have. *)
Lemma lfun_sign_free family link n m r devfun meth con lfun : proper n m -> mo_re _ m = Some r -> find_lfun_glmm_internal X family link m r devfun meth con = Ok lfun ->
  (meth = "Laplace" /\ symmetric (x_solve2 X) n m r devfun /\
     (lookup "order" con <> Some 1 -> forall theta beta, length theta = ntheta m -> length beta = mo_p _ m -> exists y w, ISSpec.fits n m r y w theta beta) \/
   meth = "AGQ" /\ (forall k g, x_AGQ X m r k = Ok g -> sign_free m r g)) ->
  forall theta theta' beta s l, length theta = ntheta m -> length theta' = length theta -> length beta = mo_p _ m -> mirror (frame_of m r) beta theta theta' s ->
  lfun (theta ++ beta)%list = Ok l -> lfun (theta' ++ beta)%list = Ok l.
Proof.
  intros P R0 L Q theta theta' beta s l LT LT' LB MI V. unfold find_lfun_glmm_internal in L. destruct Q as [(-> & SY & FI)|(-> & SF)].
  - cbn [String.eqb Ascii.eqb Bool.eqb] in L. apply bind_Ok in L. destruct L as (order & O & L). unfold needed in O. destruct (lookup "order" con) as [o|]; [|discriminate]. injection O as ->.
    unfold find_lfun_Laplace in L. apply bind_Ok in L. destruct L as ([] & _ & L). injection L as <-. apply bind_Ok in V. destruct V as ([[d mean] Pm] & DV & V).
    destruct (SY theta theta' beta s LT LT' LB MI d mean Pm DV) as (LM & SV & (G & IV) & P' & DV' & FP & SV'). rewrite DV'. cbn [bind].
    unfold lfun_Laplace in *. destruct (Reqb order 1) eqn:O1; [exact V|]. apply bind_Ok in V. destruct V as ([] & CO & V). rewrite CO. cbn [bind].
    destruct (Reqb order 2); [|discriminate]. apply bind_Ok in V. destruct V as (eps & EE & V). injection V as <-.
    assert (N1 : Some order <> Some 1) by (intros [= ->]; unfold Reqb in O1; destruct (Req_EM_T 1 1); congruence).
    destruct (FI N1 theta beta LT LB) as (y & w & F).
    assert (MF : exists lk, make_family family link = Ok (mkFamily lk Binomial)).
    { unfold find_epsilon_1 in EE. apply bind_Ok in EE. destruct EE as ([lk []] & MF & _). now exists lk. }
    destruct MF as [lk MF].
    pose proof (C71_second_order_main (x_solve2 X) family link lk n m r y w theta theta' beta s Pm P' G mean MF F LT' MI SV SV' IV LM FP) as E2. rewrite E2, EE. reflexivity.
  - cbn [String.eqb Ascii.eqb Bool.eqb] in L. apply bind_Ok in L. destruct L as (k & _ & L). unfold find_lfun_AGQ in L. apply bind_Ok in L. destruct L as (g & Eg & L). injection L as <-.
    now rewrite (SF k g Eg theta theta' beta s LT LT' LB MI).
Qed.

Lemma C76_reported_main formula subforms data family link method control weights prev f lfun m meth con div un n r :
  descends (x_optim X) -> glmm X formula subforms data family link method control weights prev = Ok (GlmmFit f lfun m meth con div un) ->
  (1 <= ntheta m)%nat -> (forall x, prev = Some x -> length x = (ntheta m + mo_p _ m)%nat) ->
  proper n m -> mo_re _ m = Some r -> bounds_fit r ->
  (meth = "Laplace" /\ (forall devfun, x_devfun X m r = Ok devfun -> symmetric (x_solve2 X) n m r devfun) /\
     (lookup "order" con <> Some 1 -> forall theta beta, length theta = ntheta m -> length beta = mo_p _ m -> exists y w, ISSpec.fits n m r y w theta beta) \/
   meth = "AGQ" /\ (forall k g, x_AGQ X m r k = Ok g -> sign_free m r g)) ->
  exists l0 l, lfun (start_of (ntheta m) (mo_p _ m) prev) = Ok l0 /\ lfun (ft_estim f) = Ok l /\ l0 <= l.
Proof.
  intros HD H HT HP P R0 B Q. pose proof (C76_estimates_main _ _ _ _ _ _ _ _ _ _ _ _ _ _ _ _ HD H HT HP) as (_ & _ & LE & _ & _ & _).
  apply glmm_inv in H. destruct H as (meth' & con' & w & m' & r' & dv & lf & opt & div' & un' & W & E & C & M & R0' & D & L & O & DU & H).
  destruct (forallb _ (rt_lower _ r')) eqn:LZ; [|discriminate]. injection H; intros; subst meth' con' m' lf div' un' f method. clear H.
  assert (r' = r) by congruence. subst r'. destruct opt as [e Sg].
  assert (NT : ntheta m = length (rt_theta _ r)) by (unfold ntheta; now rewrite R0). rewrite <- NT in *.
  pose proof (C60_estimate_main (x_optim X) (x_inv X) HD lfun (mo_p _ m) (ntheta m) prev e Sg HT HP O _ eq_refl) as (EL & _ & EB & l0 & l & L0 & L1 & LL).
  exists l0, l. split; [exact L0|]. split; [|exact LL]. cbn [make_fit ft_estim fst].
  assert (S1 : length (firstn (ntheta m) e) = ntheta m) by (rewrite firstn_length; lia). assert (S2 : length (skipn (ntheta m) e) = mo_p _ m) by (rewrite skipn_length; lia).
  destruct (C71_reported_main n m r (firstn (ntheta m) e) (skipn (ntheta m) e) P R0 B S1) as (theta' & s & RE & LT' & MI).
  pose proof (firstn_skipn (ntheta m) e) as FS. assert (RE' : report_estim Rnum (rt_lower _ r) (ntheta m) e = (theta' ++ skipn (ntheta m) e)%list) by (refine (eq_trans _ RE); exact (eq_sym (f_equal (report_estim Rnum (rt_lower _ r) (ntheta m)) FS))).
  refine (eq_trans (f_equal (fun k => lfun (report_estim Rnum (rt_lower _ r) k e)) (eq_sym NT)) _). refine (eq_trans (f_equal lfun RE') _). rewrite <- FS in L1.
  refine (lfun_sign_free family link n m r dv meth con lfun P R0 L _ _ _ _ s l S1 LT' S2 MI L1).
  destruct Q as [(Q1 & Q2 & Q3)|Q]; [left; exact (conj Q1 (conj (Q2 dv D) Q3))|right; exact Q].
Qed.

(** * Options *)
Definition relevant (meth : string) : list string :=
  if String.eqb meth "Laplace" then ["order"; "check_Laplace"; "divergence_threshold"]
  else if String.eqb meth "AGQ" then ["nAGQ"; "check_Laplace"]
  else if String.eqb meth "SR" then ["nSL"; "nAGQ"; "check_Laplace"] else ["nIS"; "check_Laplace"].
Lemma relevant_same meth c1 c2 con1 con2 w1 w2 : In meth methods -> same_options meth c1 c2 ->
  find_control_with_defaults c1 [meth] = Ok (con1, w1) -> find_control_with_defaults c2 [meth] = Ok (con2, w2) ->
  forall name, In name (relevant meth) -> lookup name con1 = lookup name con2.
Proof.
  intros IM SO E1 E2. destruct (C39_main c1 meth IM) as (k1 & u1 & n1 & F1 & A1 & B1 & D1 & S1 & N1 & L1 & _). destruct (C39_main c2 meth IM) as (k2 & u2 & n2 & F2 & A2 & B2 & D2 & S2 & N2 & L2 & _).
  rewrite E1 in F1. rewrite E2 in F2. injection F1 as <- _. injection F2 as <- _.
  assert (OPT : forall name, In name (options_of meth) -> ~ (meth = "SR" /\ name = "nAGQ") -> name <> "check_Laplace" -> lookup name con1 = lookup name con2).
  { intros name I N C. pose proof (SO name I) as G. destruct (given name c1) as [v|] eqn:G1.
    - rewrite (B1 name v G1 N C). symmetry in G. now rewrite (B2 name v G N C).
    - rewrite (D1 name G1 I C). symmetry in G. now rewrite (D2 name G I C). }
  destruct IM as [<-|[<-|[<-|[<-|[]]]]]; cbn [relevant String.eqb Ascii.eqb Bool.eqb]; intros name I.
  - assert (O : lookup "order" con1 = lookup "order" con2) by (apply OPT; [cbn; tauto|intros [[=] _]|discriminate]).
    destruct I as [<-|[<-|[<-|[]]]]; [exact O| |apply OPT; [cbn; tauto|intros [[=] _]|discriminate]].
    destruct (L1 eq_refl) as (o1 & Q1 & H1 & K1). destruct (L2 eq_refl) as (o2 & Q2 & H2 & K2). assert (o2 = o1) by congruence. subst o2.
    destruct (Rlt_dec 1 o1) as [G|G]; [rewrite H1, H2 by exact G; reflexivity|]. apply Rnot_lt_le in G. rewrite K1, K2 by exact G. rewrite (SO "check_Laplace"); [reflexivity|cbn; tauto].
  - destruct I as [<-|[<-|[]]]; [apply OPT; [cbn; tauto|intros [[=] _]|discriminate]|]. now rewrite N1, N2 by discriminate.
  - assert (O : lookup "nSL" con1 = lookup "nSL" con2) by (apply OPT; [cbn; tauto|intros [_ [=]]|discriminate]).
    destruct (S1 eq_refl) as (s1 & Q1 & H1). destruct (S2 eq_refl) as (s2 & Q2 & H2). assert (s2 = s1) by congruence. subst s2.
    destruct I as [<-|[<-|[<-|[]]]]; [exact O|congruence|now rewrite N1, N2 by discriminate].
  - destruct I as [<-|[<-|[]]]; [apply OPT; [cbn; tauto|intros [[=] _]|discriminate]|]. now rewrite N1, N2 by discriminate.
Qed.
Lemma check_off meth c con w : In meth methods -> meth <> "Laplace" -> find_control_with_defaults c [meth] = Ok (con, w) -> lookup "check_Laplace" con = Some 0.
Proof. intros IM N E. destruct (C39_main c meth IM) as (k1 & u1 & n1 & F1 & A1 & B1 & D1 & S1 & N1 & L1 & _). rewrite E in F1. injection F1 as <- _. now apply N1. Qed.

Lemma C76_options_main formula subforms data family link meth c1 c2 weights prev : same_options meth c1 c2 ->
  same_result (glmm X formula subforms data family link [meth] c1 weights prev) (glmm X formula subforms data family link [meth] c2 weights prev).
Proof.
  intros SO. unfold glmm. destruct (check_weights weights) as [[]|e| |]; cbn [bind same_result]; auto.
  destruct (in_dec string_dec meth methods) as [IM|IM].
  2: { rewrite !C39_unknown_main by (intros ? [= <-]; exact IM). reflexivity. }
  destruct (C39_main c1 meth IM) as (con1 & u1 & n1 & E1 & _). destruct (C39_main c2 meth IM) as (con2 & u2 & n2 & E2 & _). rewrite E1, E2. cbn [bind fst].
  pose proof (relevant_same meth c1 c2 con1 con2 _ _ IM SO E1 E2) as RS.
  destruct (find_modfr_glmm _ _ _ _ _ _ _) as [m|e| |]; cbn [bind same_result]; auto. destruct (mo_re _ m) as [r|]; [|reflexivity].
  destruct (x_devfun X m r) as [dv|e| |]; cbn [bind same_result]; auto.
  assert (LF : find_lfun_glmm_internal X family link m r dv meth con1 = find_lfun_glmm_internal X family link m r dv meth con2).
  { unfold find_lfun_glmm_internal. destruct IM as [<-|[<-|[<-|[<-|[]]]]]; cbn [String.eqb Ascii.eqb Bool.eqb]; rewrite !RS by (cbn; tauto); reflexivity. }
  rewrite LF. destruct (find_lfun_glmm_internal X family link m r dv meth con2) as [lf|e| |]; cbn [bind same_result]; auto.
  destruct (optimize_glmm _ _ _ _ _ _) as [opt|e| |]; cbn [bind same_result]; auto.
  assert (CH : lookup "check_Laplace" con1 = lookup "check_Laplace" con2) by (apply RS; destruct IM as [<-|[<-|[<-|[<-|[]]]]]; cbn; tauto). rewrite CH.
  destruct (lookup "check_Laplace" con2) as [c|] eqn:CL; cbn [needed bind]; [|reflexivity].
  assert (TH : Reqb c 0 = false -> lookup "divergence_threshold" con1 = lookup "divergence_threshold" con2).
  { intros NZ. destruct (string_dec meth "Laplace") as [->|N]; [apply RS; cbn; tauto|]. rewrite (check_off _ _ _ _ IM N E2) in CL. injection CL as <-. unfold Reqb in NZ. destruct (Req_EM_T 0 0); [discriminate|lra]. }
  destruct (Reqb c 0); [|rewrite TH by reflexivity].
  - cbn [bind fst snd]. destruct (forallb _ _); cbn [same_result]; repeat split; reflexivity.
  - destruct (laplace_divergence _ _ _ _ _ _ _) as [d|e| |]; cbn [bind same_result]; auto. destruct (lookup "divergence_threshold" con2) as [t|]; cbn [needed bind same_result]; [|reflexivity].
    cbn [fst snd]. destruct (forallb _ _); cbn [same_result]; repeat split; reflexivity.
Qed.

(** * What is accepted *)
Fixpoint rexpr_rect' (Q : rexpr -> Prop) (hc : forall c, Q (Const c)) (hn : forall s, Q (Name s)) (hl : forall xs, List.Forall Q xs -> Q (Call xs)) (x : rexpr) : Q x :=
  match x with
  | Const c => hc c
  | Name s => hn s
  | Call xs => hl xs ((fix go l : List.Forall Q l := match l with [] => List.Forall_nil Q | y :: l' => List.Forall_cons y (rexpr_rect' Q hc hn hl y) (go l') end) xs)
  end.
Lemma finds_bar_iff x : finds_bar x = true <-> bar_in x.
Proof.
  induction x as [c|s|xs F] using rexpr_rect'; try (split; [discriminate|intros H; inversion H]).
  destruct xs as [|h [|a [|b rest]]]; try (split; [discriminate|intros H; inversion H; congruence]).
  - inversion F as [|? ? _ F1]; subst. inversion F1 as [|? ? Ha _]; subst. cbn [finds_bar]. rewrite orb_true_iff. split.
    + intros [H|H]; [|apply bar_first, Ha, H]. destruct h as [|s|]; try discriminate. apply String.eqb_eq in H. subst. now constructor.
    + intros H. inversion H; subst; [left; apply String.eqb_refl|right; now apply Ha].
  - inversion F as [|? ? _ F1]; subst. inversion F1 as [|? ? Ha F2]; subst. inversion F2 as [|? ? Hb _]; subst. cbn [finds_bar]. rewrite !orb_true_iff. split.
    + intros [[H|H]|H]; [|apply bar_first, Ha, H|apply bar_second, Hb, H]. destruct h as [|s|]; try discriminate. apply String.eqb_eq in H. subst. now constructor.
    + intros H. inversion H; subst; [left; left; apply String.eqb_refl|left; right; now apply Ha|right; now apply Hb].
Qed.
Lemma has_re_iff x : random_outside_Sub x -> has_re x = true.
Proof. intros (xs & rhs & -> & B). cbn [has_re]. rewrite last_last. now apply finds_bar_iff. Qed.

Lemma family_binomial family link fam : make_family family link = Ok fam -> family = "binomial" /\ (link = "logit" \/ link = "probit").
Proof.
  unfold make_family, link_initialize, familyGivenMean_initialize. destruct (String.eqb_spec link "logit") as [->|N1]; [|destruct (String.eqb_spec link "probit") as [->|N2]; [|discriminate]];
    cbn [bind]; destruct (String.eqb_spec family "binomial") as [->|]; try discriminate; auto.
Qed.

(** A loglikelihood that always stops cannot be optimized. *)
Lemma never_optimized lfun p_beta p_theta prev opt : descends (x_optim X) -> optimize_glmm (x_optim X) (x_inv X) lfun p_beta p_theta prev = Ok opt -> exists x l, lfun x = Ok l.
Proof.
  intros HD H. unfold optimize_glmm in H. apply bind_Ok in H. destruct H as (d0 & D0 & H). apply bind_Ok in H. destruct H as ([e h] & O & H).
  unfold devfun_std, devfun_ext in D0. apply bind_Ok in D0. destruct D0 as (o & O0 & D0). set (x0 := recycled_sum _ _) in *. destruct o.
  - injection D0 as <-. destruct (HD _ _ _ _ O) as (_ & v0 & v & F0 & _). unfold devfun_std, devfun_ext in F0. fold x0 in F0. rewrite O0 in F0. cbn [bind dev_plus] in F0. discriminate.
  - destruct (lfun x0) as [l| | |] eqn:L; try discriminate. now exists x0, l.
Qed.

Lemma C76_accepted_main formula subforms data family link method control weights prev res :
  descends (x_optim X) -> (forall g x v, x_grad X g x = Ok v -> exists y, g x = Ok y) ->
  glmm X formula subforms data family link method control weights prev = Ok res ->
  List.Forall near_integer weights /\
  exists meth, method = [meth] /\ In meth methods /\
  (forall form0 subexprs, split_formula formula = Ok (form0, subexprs) -> random_outside_Sub form0 -> family <> "gaussian") /\
  (meth = "SR" -> family = "binomial" /\ (link = "logit" \/ link = "probit")) /\
  (meth = "Laplace" ->
     (used "order" 1 control = 1 \/ used "order" 1 control = 2 /\ family = "binomial" /\ link = "logit") /\
     (used "order" 1 control = 1 -> used "check_Laplace" 0 control <> 0 -> family = "binomial" /\ (link = "logit" \/ link = "probit"))).
Proof.
  intros HD HG H. apply glmm_inv in H. destruct H as (meth & con & w & m & r & dv & lf & opt & div & un & W & E & C & M & R0 & D & L & O & (c & CL & DU) & _).
  split; [exact W|]. exists meth. split; [exact E|].
  assert (IM : In meth methods).
  { destruct (in_dec string_dec meth methods) as [I|N]; [exact I|]. rewrite C39_unknown_main in C by (intros ? [= <-]; exact N). discriminate. }
  split; [exact IM|]. destruct (C39_main control meth IM) as (k1 & u1 & n1 & F1 & A1 & B1 & D1 & S1 & N1 & L1 & _). rewrite C in F1. injection F1 as <- _. split; [|split].
  - intros form0 subexprs SF RE ->. unfold find_modfr_glmm in M. rewrite SF in M. cbn [bind fst] in M. unfold parse_formula in M. rewrite (has_re_iff _ RE) in M. cbn [String.eqb Ascii.eqb Bool.eqb bind] in M. discriminate.
  - intros ->. unfold find_lfun_glmm_internal in L. cbn [String.eqb Ascii.eqb Bool.eqb] in L. apply bind_Ok in L. destruct L as (nSL & _ & L). apply bind_Ok in L. destruct L as (nAGQ & _ & L).
    unfold the_lfun_SR in L. apply bind_Ok in L. destruct L as (k & _ & L). apply bind_Ok in L. destruct L as (s & L & _). unfold LfunSR.find_lfun_SR in L.
    apply bind_Ok in L. destruct L as ([] & _ & L). apply bind_Ok in L. destruct L as (ts & _ & L). apply bind_Ok in L. destruct L as (bs & _ & L). apply bind_Ok in L. destruct L as (fam & MF & _).
    exact (family_binomial _ _ _ MF).
  - intros ->. assert (OR : lookup "order" con = Some (used "order" 1 control)).
    { unfold used. destruct (given "order" control) as [v|] eqn:G; [apply (B1 _ _ G); [intros [[=] _]|discriminate]|exact (D1 "order" G (or_introl eq_refl) ltac:(discriminate))]. }
    set (order := used "order" 1 control) in *. unfold find_lfun_glmm_internal in L. cbn [String.eqb Ascii.eqb Bool.eqb] in L. rewrite OR in L. cbn [needed bind] in L.
    unfold find_lfun_Laplace in L. apply bind_Ok in L. destruct L as ([] & CH & L). injection L as <-. split.
    + unfold Reqb at 1 in CH. destruct (Req_EM_T order 1) as [O1|O1]; [now left|]. right. apply bind_Ok in CH. destruct CH as ([] & CI & CH). unfold Reqb in CH.
      destruct (Req_EM_T order 2) as [O2|]; [|discriminate]. split; [exact O2|].
      destruct (never_optimized _ _ _ _ _ HD O) as (x & l & V). apply bind_Ok in V. destruct V as ([[d mean] P] & _ & V). unfold lfun_Laplace in V.
      unfold Reqb at 1 in V. destruct (Req_EM_T order 1) as [|_]; [congruence|]. rewrite CI in V. cbn [bind] in V. unfold Reqb in V. destruct (Req_EM_T order 2) as [_|]; [|congruence].
      apply bind_Ok in V. destruct V as (ep & V & _). unfold find_epsilon_1 in V. apply bind_Ok in V. destruct V as (fam & MF & _). destruct (family_binomial _ _ _ MF) as [-> LK].
      split; [reflexivity|]. unfold check_if_order_implemented in CI. rewrite O2 in CI. unfold Rltb in CI. destruct (Rlt_dec 2 2) as [|_]; [discriminate|].
      cbn [canonical_link existsb String.eqb Ascii.eqb Bool.eqb orb bind] in CI. destruct (Rlt_dec 1 2) as [_|N]; [|exfalso; apply N; lra]. destruct (String.eqb_spec link "logit") as [->|N]; [reflexivity|discriminate].
    + intros O1 NC. destruct (L1 eq_refl) as (o & Q & _ & K). rewrite OR in Q. injection Q as <-. rewrite (K (Req_le _ _ O1)) in CL. injection CL as CL. fold (used "check_Laplace" 0 control) in CL.
      destruct DU as [(Z & _)|(_ & d & t & LD & _)]; [congruence|]. unfold laplace_divergence in LD. apply bind_Ok in LD. destruct LD as (delta & G & _). destruct (HG _ _ _ G) as (y & Y).
      apply bind_Ok in Y. destruct Y as ([[d' mean] P] & _ & Y). unfold find_epsilon_1 in Y. apply bind_Ok in Y. destruct Y as (fam & MF & _). exact (family_binomial _ _ _ MF).
Qed.

(** * The check of the approximation *)
Lemma divergence_sum d delta Sigma : MatrixSpec.square d Sigma -> length delta = d ->
  find_laplace_divergence delta Sigma = sumR d (fun i => sumR d (fun j => nth i delta 0 * MatrixSpec.entry Sigma j i * nth j delta 0)) / 2.
Proof.
  intros [SL SR] LD. unfold find_laplace_divergence. rewrite LD. rewrite (vsum_sum _ d) by (rewrite vmul_length; rewrite ?crossprod_vec_length; exact LD).
  unfold Rdiv at 2. rewrite (Rmult_comm (sumR d _) (/ 2)). unfold Rdiv. rewrite Rmult_1_l. f_equal. apply sumR_ext. intros i Hi. rewrite vmul_nth by (rewrite crossprod_vec_length; exact LD).
  rewrite crossprod_vec_nth by assumption. rewrite <- sumR_scal. apply sumR_ext. intros j Hj. unfold at2, MatrixSpec.entry. ring.
Qed.

Lemma C76_check_main formula subforms data family link method control weights prev f lfun m meth con div un :
  glmm X formula subforms data family link method control weights prev = Ok (GlmmFit f lfun m meth con div un) ->
  (div <> None <-> meth = "Laplace" /\ used "order" 1 control = 1 /\ used "check_Laplace" 0 control <> 0) /\
  (un = true <-> exists d, div = Some d /\ used "divergence_threshold" (1 / 10) control < d) /\
  (forall d, div = Some d -> exists found g delta Sigma,
     absolute (ntheta m) found (ft_estim f) /\ (forall S, ft_Sigma f = Some S -> S = Sigma) /\ x_grad X g found = Ok delta /\
     (forall f1 f2, find_lfun_glmm X family link m ["Laplace"] [("order", 1)] = Ok f1 -> find_lfun_glmm X family link m ["Laplace"] [("order", 2)] = Ok f2 ->
        forall x l1 l2, f1 x = Ok l1 -> f2 x = Ok l2 -> g x = Ok (l2 - l1)) /\
     (forall p, MatrixSpec.square p Sigma -> length delta = p ->
        d = sumR p (fun i => sumR p (fun j => nth i delta 0 * MatrixSpec.entry Sigma j i * nth j delta 0)) / 2)).
Proof.
  intros H. apply glmm_inv in H. destruct H as (meth' & con' & w & m' & r & dv & lf & opt & div' & un' & W & E & C & M & R0 & D & L & O & (c & CL & DU) & H).
  destruct (forallb _ (rt_lower _ r)) eqn:LZ; [|discriminate]. injection H; intros; subst meth' con' m' lf div' un'. clear H. subst f method.
  pose proof (proj1 (all_zero _) LZ) as LZ'.
  assert (IM : In meth methods).
  { destruct (in_dec string_dec meth methods) as [I|N]; [exact I|]. rewrite C39_unknown_main in C by (intros ? [= <-]; exact N). discriminate. }
  destruct (C39_main control meth IM) as (k1 & u1 & n1 & F1 & A1 & B1 & D1 & S1 & N1 & L1 & _). rewrite C in F1. injection F1 as <- _.
  assert (OR : meth = "Laplace" -> lookup "order" con = Some (used "order" 1 control)).
  { intros ->. unfold used. destruct (given "order" control) as [v|] eqn:G; [apply (B1 _ _ G); [intros [[=] _]|discriminate]|exact (D1 "order" G (or_introl eq_refl) ltac:(discriminate))]. }
  assert (TH : meth = "Laplace" -> lookup "divergence_threshold" con = Some (used "divergence_threshold" (1 / 10) control)).
  { intros ->. unfold used. destruct (given "divergence_threshold" control) as [v|] eqn:G; [apply (B1 _ _ G); [intros [[=] _]|discriminate]|].
    exact (D1 "divergence_threshold" G (or_intror (or_intror (or_introl eq_refl))) ltac:(discriminate)). }
  assert (ML : c <> 0 -> meth = "Laplace" /\ used "order" 1 control = 1 /\ c = used "check_Laplace" 0 control).
  { intros NC. destruct (string_dec meth "Laplace") as [->|N]; [|rewrite (N1 N) in CL; congruence]. split; [reflexivity|]. specialize (OR eq_refl).
    destruct (L1 eq_refl) as (o & Q & K1 & K2). rewrite OR in Q. injection Q as <-. set (order := used "order" 1 control) in *.
    assert (LE : order <= 1) by (destruct (Rle_dec order 1) as [|G]; [assumption|rewrite (K1 ltac:(lra)) in CL; congruence]).
    rewrite (K2 LE) in CL. injection CL as <-. split; [|reflexivity].
    unfold find_lfun_glmm_internal in L. cbn [String.eqb Ascii.eqb Bool.eqb] in L. rewrite OR in L. cbn [needed bind] in L.
    unfold find_lfun_Laplace in L. apply bind_Ok in L. destruct L as ([] & CH & _). unfold Reqb at 1 in CH. destruct (Req_EM_T order 1) as [O1|O1]; [exact O1|].
    apply bind_Ok in CH. destruct CH as ([] & _ & CH). unfold Reqb in CH. destruct (Req_EM_T order 2) as [O2|]; [lra|discriminate]. }
  assert (MC : meth = "Laplace" -> used "order" 1 control = 1 -> c = used "check_Laplace" 0 control).
  { intros -> O1. destruct (L1 eq_refl) as (o & Q & _ & K). rewrite (OR eq_refl), O1 in Q. injection Q as <-. rewrite (K (Rle_refl 1)) in CL. now injection CL. }
  destruct DU as [(Z & -> & ->)|(NC & d & t & LD & T & -> & ->)].
  - split; [split; [intros N; now contradiction N|intros (ML' & O1 & N); exfalso; apply N; rewrite <- (MC ML' O1); exact Z]|]. split; [split; [discriminate|intros (d & [=] & _)]|discriminate].
  - destruct (ML NC) as (-> & O1 & EC). split; [split; [intros _; rewrite <- EC; auto|discriminate]|]. split.
    { rewrite (TH eq_refl) in T. injection T as <-. unfold exceeds. destruct (Rlt_dec _ _) as [G|G]; split; try discriminate; try reflexivity; [now exists d|intros (d' & [= <-] & G'); contradiction]. }
    intros d' [= <-]. unfold laplace_divergence in LD. apply bind_Ok in LD. destruct LD as (delta & G & LD). injection LD as <-.
    exists (fst opt), (fun x => d <- dv x ;; let '(_, mean, precision) := d in find_epsilon_1 (x_solve2 X) family link x m r mean precision), delta, (snd opt).
    split; [unfold ntheta; rewrite R0; cbn [make_fit ft_estim]; now apply report_absolute|]. split.
    { intros S. unfold make_fit. cbn [ft_Sigma]. destruct (existsb _ _); [discriminate|]. now intros [= <-]. }
    split; [exact G|]. split; [|intros p SQ LDl; now apply divergence_sum].
    intros f1 f2 F1 F2 x l1 l2 V1 V2. unfold find_lfun_glmm in F1, F2. rewrite R0, D in F1, F2. cbn [bind] in F1, F2.
    destruct (C39_main [("order", 1)] "Laplace" IM) as (c1 & ? & ? & E1 & _ & B' & _). rewrite E1 in F1. pose proof (B' "order" 1 eq_refl ltac:(intros [[=] _]) ltac:(discriminate)) as Q1. clear B'.
    destruct (C39_main [("order", 2)] "Laplace" IM) as (c2 & ? & ? & E2 & _ & B' & _). rewrite E2 in F2. pose proof (B' "order" 2 eq_refl ltac:(intros [[=] _]) ltac:(discriminate)) as Q2. clear B'.
    cbn [bind fst] in F1, F2. unfold find_lfun_glmm_internal in F1, F2. cbn [String.eqb Ascii.eqb Bool.eqb] in F1, F2. rewrite Q1 in F1. rewrite Q2 in F2. cbn [needed bind] in F1, F2.
    unfold find_lfun_Laplace in F1, F2. apply bind_Ok in F1. destruct F1 as ([] & _ & F1). injection F1 as <-. apply bind_Ok in F2. destruct F2 as ([] & _ & F2). injection F2 as <-.
    apply bind_Ok in V1. destruct V1 as ([[d mean] P] & DV & V1). rewrite DV in V2. cbn [bind] in V2. rewrite DV. cbn [bind]. unfold lfun_Laplace in V1, V2. unfold Reqb at 1 in V1.
    destruct (Req_EM_T 1 1) as [_|N]; [|now contradiction N]. injection V1 as <-. unfold Reqb at 1 in V2. destruct (Req_EM_T 2 1) as [N|_]; [lra|].
    apply bind_Ok in V2. destruct V2 as ([] & _ & V2). unfold Reqb in V2. destruct (Req_EM_T 2 2) as [_|N]; [|now contradiction N]. apply bind_Ok in V2. destruct V2 as (ep & EP & V2). injection V2 as <-.
    rewrite EP. f_equal. ring.
Qed.

(** * The loglikelihood of each method *)
Lemma natural_inv x k : natural x = Ok k -> INR k = x.
Proof. unfold natural, Reqb. destruct (Req_EM_T _ _) as [E|]; [|discriminate]. now intros [= <-]. Qed.
Lemma C76_lfun_main family link m meth control lfun : find_lfun_glmm X family link m [meth] control = Ok lfun ->
  exists r dv, mo_re _ m = Some r /\ x_devfun X m r = Ok dv /\ In meth methods /\
  (meth = "Laplace" -> used "order" 1 control = 1 -> forall x d mean P, dv x = Ok (d, mean, P) -> lfun x = Ok (- d / 2)) /\
  (meth = "AGQ" -> exists g, x_AGQ X m r (used "nAGQ" 15 control) = Ok g /\ forall x d, g x = Ok d -> lfun x = Ok (- d / 2)) /\
  (meth = "IS" -> exists k, INR k = used "nIS" 1000 control /\ forall x d mean P, dv x = Ok (d, mean, P) ->
     lfun x = lfun_IS (x_chol X) (x_solve X) (x_determinant X) (x_rnorm X (nrandom m) k) k (x_family X family link) m r x mean P) /\
  (meth = "SR" -> exists k s, INR k = used "nSL" 3 control /\
     LfunSR.find_lfun_SR (x_inverse X) (x_det X) (x_isnormal X) (x_T X) (x_scope X) (x_eval X) (x_deriv X) (x_deriv2 X) (x_integral X (2 ^ (k + 1) - 1) k)
       (frame_of m r) (ntheta m) family link k = Ok s /\
     forall x d mean P, dv x = Ok (d, mean, P) ->
       lfun x = lfun_SR (x_inverse X) (x_det X) (x_isnormal X) (x_T X) (x_scope X) (x_eval X) (x_deriv X) (x_deriv2 X) (x_integral X (2 ^ (k + 1) - 1) k)
         (fun _ => (- d / 2, mean, fun i j => nth (Z.to_nat j) (nth (Z.to_nat i) P []) 0)) s x).
Proof.
  intros H. unfold find_lfun_glmm in H. destruct (mo_re _ m) as [r|] eqn:R0; [|discriminate]. apply bind_Ok in H. destruct H as (dv & D & H). apply bind_Ok in H. destruct H as ([con w] & C & L). cbn [fst] in L.
  assert (IM : In meth methods).
  { destruct (in_dec string_dec meth methods) as [I|N]; [exact I|]. rewrite C39_unknown_main in C by (intros ? [= <-]; exact N). discriminate. }
  exists r, dv. split; [reflexivity|]. split; [exact D|]. split; [exact IM|].
  destruct (C39_main control meth IM) as (k1 & u1 & n1 & F1 & A1 & B1 & D1 & S1 & N1 & L1 & _). rewrite C in F1. injection F1 as <- _.
  assert (US : forall name, In name (options_of meth) -> ~ (meth = "SR" /\ name = "nAGQ") -> name <> "check_Laplace" -> lookup name con = Some (used name (documented_default name) control)).
  { intros name I N NC. unfold used. destruct (given name control) as [v|] eqn:G; [now apply B1|now apply D1]. }
  unfold find_lfun_glmm_internal in L. repeat split.
  - intros -> O1 x d mean P DV. pose proof (US "order" (or_introl eq_refl) ltac:(intros [[=] _]) ltac:(discriminate)) as O. change (documented_default "order") with 1 in O. rewrite O1 in O.
    cbn [String.eqb Ascii.eqb Bool.eqb] in L. rewrite O in L. cbn [needed bind] in L. unfold find_lfun_Laplace in L. apply bind_Ok in L. destruct L as ([] & _ & L). injection L as <-.
    rewrite DV. cbn [bind]. unfold lfun_Laplace, Reqb. destruct (Req_EM_T 1 1) as [_|N]; [reflexivity|now contradiction N].
  - intros ->. pose proof (US "nAGQ" (or_introl eq_refl) ltac:(intros [[=] _]) ltac:(discriminate)) as O. change (documented_default "nAGQ") with 15 in O.
    cbn [String.eqb Ascii.eqb Bool.eqb] in L. rewrite O in L. cbn [needed bind] in L. unfold find_lfun_AGQ in L. apply bind_Ok in L. destruct L as (g & G & L). injection L as <-.
    exists g. split; [exact G|]. intros x d V. rewrite V. reflexivity.
  - intros ->. pose proof (US "nIS" (or_introl eq_refl) ltac:(intros [[=] _]) ltac:(discriminate)) as O. change (documented_default "nIS") with 1000 in O.
    cbn [String.eqb Ascii.eqb Bool.eqb] in L. rewrite O in L. cbn [needed bind] in L. unfold find_lfun_IS in L. apply bind_Ok in L. destruct L as (k & K & L). injection L as <-.
    exists k. split; [exact (natural_inv _ _ K)|]. intros x d mean P V. rewrite V. cbn [bind]. unfold nrandom. rewrite R0. reflexivity.
  - intros ->. pose proof (US "nSL" (or_introl eq_refl) ltac:(intros [_ [=]]) ltac:(discriminate)) as O. change (documented_default "nSL") with 3 in O.
    destruct (S1 eq_refl) as (lv & O' & Q). rewrite O in O'. injection O' as <-.
    cbn [String.eqb Ascii.eqb Bool.eqb] in L. rewrite O, Q in L. cbn [needed bind] in L. unfold the_lfun_SR in L. apply bind_Ok in L. destruct L as (k & K & L). apply bind_Ok in L. destruct L as (s & S0 & L). injection L as <-.
    apply natural_inv in K. exists k, s. split; [exact K|]. rewrite <- K in S0.
    assert (PW : Rpower 2 (INR k + 1) - 1 = 2 ^ (k + 1) - 1) by (rewrite <- (Rpower_pow (k + 1)) by lra; rewrite plus_INR; reflexivity).
    rewrite <- K. rewrite PW in S0 |- *. split; [|intros x d mean P V; rewrite V; reflexivity].
    assert (FO : ntheta m = length (rt_theta _ r)) by (unfold ntheta; now rewrite R0). rewrite FO. exact S0.
Qed.
End X.
