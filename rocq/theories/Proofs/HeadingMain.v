(** C87: the heading of a fit. *)
From Coq Require Import String Ascii List ZArith Arith Reals Bool Lia Lra.
From Verif Require Import Model.Base Model.Family Model.GLMM Model.SplitFrame Model.Vectors Model.Frames Model.Control Model.Subexpr Model.SplitFormula Model.FindModfr Model.Fit Model.Glmm Model.SaveFile Model.Heading
  Spec.Numbers Spec.ControlSpec Spec.SaveSpec Spec.GlmmSpec Spec.HeadingSpec Proofs.ControlMain Proofs.SaveLemmas Proofs.GlmmMain.
Import ListNotations.
Local Open Scope string_scope.
Notation length := List.length.

(** * Strings *)
Lemma app_cut c a b x y : has_char c a = false -> has_char c b = false -> a ++ String c x = b ++ String c y -> a = b /\ x = y.
Proof.
  revert b. induction a as [|d a IH]; intros b A B H; destruct b as [|e b]; cbn [append has_char] in *.
  - now injection H.
  - injection H as <- H. rewrite Ascii.eqb_refl in B. discriminate.
  - injection H as -> H. rewrite Ascii.eqb_refl in A. discriminate.
  - injection H as -> H. apply orb_false_iff in A, B. destruct A as [_ A], B as [_ B]. destruct (IH b A B H) as [-> ->]. now split.
Qed.
Lemma app_same a x y : a ++ x = a ++ y -> x = y.
Proof. induction a as [|d a IH]; cbn [append]; intros H; [exact H|]. injection H as H. exact (IH H). Qed.
Lemma app_last c a b : a ++ String c "" = b ++ String c "" -> a = b.
Proof.
  revert b. induction a as [|d a IH]; intros b H; destruct b as [|e b]; cbn [append] in *; [reflexivity|..].
  - injection H as _ H. destruct b; discriminate.
  - injection H as _ H. destruct a; discriminate.
  - injection H as -> H. now rewrite (IH b H).
Qed.
Lemma cut_line (a b x y : string) : has_char (ascii_of_nat 10) a = false -> has_char (ascii_of_nat 10) b = false -> a ++ newline ++ x = b ++ newline ++ y -> a = b /\ x = y.
Proof. exact (app_cut (ascii_of_nat 10) a b x y). Qed.

(** * The name *)
Lemma completed meth control con w : find_control_with_defaults control [meth] = Ok (con, w) -> In meth methods /\ lookup (accuracy meth) con = Some (value_used meth control).
Proof.
  intros H. assert (M : In meth methods).
  { destruct (in_dec string_dec meth methods) as [I|N]; [exact I|]. rewrite (C39_unknown_main control [meth]) in H; [discriminate|]. intros m [= <-]. exact N. }
  split; [exact M|]. destruct (C39_main control meth M) as (con' & u & n & E & _ & G & D & _). rewrite H in E. injection E as -> _.
  assert (O : In (accuracy meth) (options_of meth) /\ accuracy meth <> "check_Laplace" /\ ~ (meth = "SR" /\ accuracy meth = "nAGQ")).
  { destruct M as [<-|[<-|[<-|[<-|[]]]]]; (split; [now left|split; [discriminate|]]); intros [A B]; discriminate. }
  destruct O as (O1 & O2 & O3). unfold value_used. destruct (given (accuracy meth) control) as [v|] eqn:E; [now apply G|now apply D].
Qed.
Lemma name_eq write meth control con w : find_control_with_defaults control [meth] = Ok (con, w) ->
  find_approximation_name write meth con = Ok (fst (words_around meth) ++ write (value_used meth control) ++ snd (words_around meth)).
Proof.
  intros H. destruct (completed _ _ _ _ H) as [M L].
  destruct M as [<-|[<-|[<-|[<-|[]]]]]; unfold accuracy in L; cbn [String.eqb Ascii.eqb Bool.eqb] in L; unfold find_approximation_name; cbn [String.eqb Ascii.eqb Bool.eqb]; rewrite L;
    unfold component, cat, words_around; cbn [String.eqb Ascii.eqb Bool.eqb fst snd String.concat append]; rewrite ?append_nil; reflexivity.
Qed.
Lemma name_other write meth con : ~ In meth methods -> find_approximation_name write meth con = Throw RuntimeError.
Proof.
  intros N. unfold find_approximation_name. destruct (String.eqb_spec meth "Laplace") as [->|_]; [now elim N; left|].
  destruct (String.eqb_spec meth "AGQ") as [->|_]; [now elim N; right; left|]. destruct (String.eqb_spec meth "SR") as [->|_]; [now elim N; right; right; left|].
  destruct (String.eqb_spec meth "IS") as [->|_]; [now elim N; right; right; right; left|]. reflexivity.
Qed.

Section Unambiguous.
Context (write : R -> string) (value : string -> option R) (round : R -> R) (limit : Z).
Hypothesis W : writes_numbers write value round limit.

Lemma write_inj x y z z' : x = IZR z -> y = IZR z' -> (Z.abs z < limit)%Z -> (Z.abs z' < limit)%Z -> write x = write y -> x = y.
Proof.
  intros -> -> L L' H. assert (E : Some (round (IZR z)) = Some (round (IZR z'))) by (rewrite <- !(wn_value _ _ _ _ W); now rewrite H).
  injection E as E. now rewrite !(wn_whole _ _ _ _ W) in E.
Qed.
Lemma around_inj m1 m2 x1 x2 : In m1 methods -> In m2 methods ->
  fst (words_around m1) ++ write x1 ++ snd (words_around m1) = fst (words_around m2) ++ write x2 ++ snd (words_around m2) -> m1 = m2 /\ write x1 = write x2.
Proof.
  intros M1 M2. destruct M1 as [<-|[<-|[<-|[<-|[]]]]], M2 as [<-|[<-|[<-|[<-|[]]]]]; unfold words_around; cbn [String.eqb Ascii.eqb Bool.eqb fst snd]; intros H;
    try (cbn [append] in H; discriminate); (split; [reflexivity|]); apply app_same in H; rewrite ?append_nil in H; try exact H.
  - exact (proj1 (app_cut " " _ _ _ _ (proj1 (proj2 (wn_word _ _ _ _ W x1))) (proj1 (proj2 (wn_word _ _ _ _ W x2))) H)).
  - exact (proj1 (app_cut " " _ _ _ _ (proj1 (proj2 (wn_word _ _ _ _ W x1))) (proj1 (proj2 (wn_word _ _ _ _ W x2))) H)).
Qed.
Lemma around_line m x : In m methods -> has_char (ascii_of_nat 10) (fst (words_around m) ++ write x ++ snd (words_around m)) = false.
Proof. intros M. rewrite !has_char_app, (proj2 (proj2 (wn_word _ _ _ _ W x))). destruct M as [<-|[<-|[<-|[<-|[]]]]]; reflexivity. Qed.

Context (show : rexpr -> string).
Hypothesis L : one_line show.

(** * Formulas *)
Lemma show_cut f g x y : show f ++ x = show g ++ y -> show f = show g /\ x = y.
Proof.
  destruct (L f) as (a & _ & A & ->), (L g) as (b & _ & B & ->). rewrite !append_assoc. intros H. destruct (cut_line a b x y A B H) as [-> ->]. now split.
Qed.
Lemma show_first f x y : show f ++ x <> newline ++ y.
Proof.
  destruct (L f) as (a & N & A & ->). destruct a as [|c a]; [now elim N|]. cbn [append newline has_char] in *. intros H. injection H as -> _. rewrite Ascii.eqb_refl in A. discriminate.
Qed.
Lemma concat_cons f fs : String.concat "" (map show (f :: fs)) = show f ++ String.concat "" (map show fs).
Proof. destruct fs as [|g fs]; cbn [map String.concat append]; [now rewrite append_nil|reflexivity]. Qed.
Lemma show_list l1 : forall l2 x y, String.concat "" (map show l1) ++ newline ++ x = String.concat "" (map show l2) ++ newline ++ y -> map show l1 = map show l2 /\ x = y.
Proof.
  induction l1 as [|f l1 IH]; intros l2 x y H; destruct l2 as [|g l2].
  - split; [reflexivity|]. exact (app_same newline _ _ H).
  - exfalso. rewrite concat_cons, append_assoc in H. symmetry in H. exact (show_first _ _ _ H).
  - exfalso. rewrite concat_cons, append_assoc in H. exact (show_first _ _ _ H).
  - rewrite !concat_cons, !append_assoc in H. destruct (show_cut _ _ _ _ H) as [E H']. destruct (IH l2 x y H') as [E' ->]. cbn [map]. now rewrite E, E'.
Qed.
Definition body (l : list rexpr) : string :=
  match l with [] => "" | [f] => "Subformula: " ++ show f | _ => "Subformulas: " ++ newline ++ String.concat "" (map show l) end.
Lemma print_body s : print_subformula show s = body (formulas s).
Proof. destruct s as [[|f [|g l]]|f]; reflexivity. Qed.
Lemma body_inj l1 l2 x y : body l1 ++ newline ++ x = body l2 ++ newline ++ y -> map show l1 = map show l2 /\ x = y.
Proof.
  intros H. destruct l1 as [|f1 [|g1 l1]], l2 as [|f2 [|g2 l2]]; cbn [body] in H; try (cbn [append newline] in H; discriminate).
  - split; [reflexivity|]. exact (app_same newline _ _ H).
  - rewrite !append_assoc in H. apply app_same in H. destruct (show_cut _ _ _ _ H) as [E H']. apply app_same in H'. cbn [map]. now rewrite E.
  - rewrite !append_assoc in H. apply app_same, app_same in H. exact (show_list _ _ _ _ H).
Qed.

(** * The heading *)
Lemma heading_eq meth con name family link formula s : find_approximation_name write meth con = Ok name ->
  heading write show meth con family link formula s =
  Ok ("Generalized linear mixed model fit by maximum likelihood [glmmFit] " ++ newline ++ "Likelihood approximation: " ++ name ++ " " ++ newline ++ " " ++ newline
      ++ "Family: " ++ family ++ " ( " ++ link ++ " ) " ++ newline ++ "Formula: " ++ show formula ++ print_subformula show s ++ newline).
Proof.
  intros N. unfold heading. rewrite N. cbn [bind]. f_equal. unfold cat. cbn [String.concat]. rewrite !append_assoc.
  reflexivity.
Qed.
Lemma C87_heading_main m1 m2 c1 c2 con1 con2 w1 w2 family1 family2 link1 link2 f1 f2 s1 s2 h1 h2 rest1 rest2 :
  find_control_with_defaults c1 [m1] = Ok (con1, w1) -> find_control_with_defaults c2 [m2] = Ok (con2, w2) ->
  written_exactly limit m1 c1 -> written_exactly limit m2 c2 ->
  one_word family1 -> one_word family2 -> one_word link1 -> one_word link2 ->
  heading write show m1 con1 family1 link1 f1 s1 = Ok h1 -> heading write show m2 con2 family2 link2 f2 s2 = Ok h2 -> h1 ++ rest1 = h2 ++ rest2 ->
  m1 = m2 /\ value_used m1 c1 = value_used m2 c2 /\ family1 = family2 /\ link1 = link2 /\ show f1 = show f2 /\ map show (formulas s1) = map show (formulas s2) /\ rest1 = rest2.
Proof.
  intros C1 C2 (z1 & V1 & B1) (z2 & V2 & B2) (Fa1 & Fb1) (Fa2 & Fb2) (La1 & Lb1) (La2 & Lb2) H1 H2 H.
  rewrite (heading_eq _ _ _ _ _ _ _ (name_eq write _ _ _ _ C1)) in H1. rewrite (heading_eq _ _ _ _ _ _ _ (name_eq write _ _ _ _ C2)) in H2.
  apply completed in C1, C2. destruct C1 as [M1 _], C2 as [M2 _].
  set (n1 := fst (words_around m1) ++ write (value_used m1 c1) ++ snd (words_around m1)) in *. set (n2 := fst (words_around m2) ++ write (value_used m2 c2) ++ snd (words_around m2)) in *.
  assert (N1 : has_char (ascii_of_nat 10) (n1 ++ " ") = false) by (rewrite has_char_app; unfold n1; now rewrite around_line).
  assert (N2 : has_char (ascii_of_nat 10) (n2 ++ " ") = false) by (rewrite has_char_app; unfold n2; now rewrite around_line).
  assert (E1 := f_equal (fun o => match o with Ok s => s | _ => "" end) H1). assert (E2 := f_equal (fun o => match o with Ok s => s | _ => "" end) H2). cbv beta iota in E1, E2.
  rewrite <- E1, <- E2 in H. clear E1 E2 H1 H2. rewrite !append_assoc in H. do 3 apply app_same in H.
  rewrite <- !(append_assoc n1 " "), <- !(append_assoc n2 " ") in H. destruct (cut_line _ _ _ _ N1 N2 H) as [EN H']. clear H.
  apply app_last in EN. apply around_inj in EN; [|exact M1|exact M2]. destruct EN as [EM EW].
  do 3 apply app_same in H'. change (family1 ++ String " " ("( " ++ link1 ++ " ) " ++ newline ++ "Formula: " ++ show f1 ++ print_subformula show s1 ++ newline ++ rest1) =
    family2 ++ String " " ("( " ++ link2 ++ " ) " ++ newline ++ "Formula: " ++ show f2 ++ print_subformula show s2 ++ newline ++ rest2)) in H'.
  destruct (app_cut " " _ _ _ _ Fa1 Fa2 H') as [EF H]. clear H'. apply app_same in H.
  change (link1 ++ String " " (") " ++ newline ++ "Formula: " ++ show f1 ++ print_subformula show s1 ++ newline ++ rest1) =
    link2 ++ String " " (") " ++ newline ++ "Formula: " ++ show f2 ++ print_subformula show s2 ++ newline ++ rest2)) in H.
  destruct (app_cut " " _ _ _ _ La1 La2 H) as [EL H']. clear H. do 3 apply app_same in H'. destruct (show_cut _ _ _ _ H') as [ES H]. rewrite !print_body in H.
  destruct (body_inj _ _ _ _ H) as [EB ER].
  refine (conj EM (conj (write_inj _ _ z1 z2 V1 V2 B1 B2 EW) (conj EF (conj EL (conj ES (conj EB ER)))))).
Qed.

(** * Fits *)
Lemma internal_same X family link m r dv meth con1 con2 c1 c2 w1 w2 : find_control_with_defaults c1 [meth] = Ok (con1, w1) -> find_control_with_defaults c2 [meth] = Ok (con2, w2) ->
  value_used meth c1 = value_used meth c2 -> find_lfun_glmm_internal X family link m r dv meth con1 = find_lfun_glmm_internal X family link m r dv meth con2.
Proof.
  intros C1 C2 V. destruct (completed _ _ _ _ C1) as [M L1], (completed _ _ _ _ C2) as [_ L2].
  assert (S : meth = "SR" -> lookup "nAGQ" con1 = lookup "nAGQ" con2).
  { intros ->. destruct (C39_main c1 "SR" M) as (con1' & u1 & n1 & E1 & _ & _ & _ & S1 & _). destruct (C39_main c2 "SR" M) as (con2' & u2 & n2 & E2 & _ & _ & _ & S2 & _).
    rewrite C1 in E1. injection E1 as -> _. rewrite C2 in E2. injection E2 as -> _. destruct (S1 eq_refl) as (l1 & A1 & ->), (S2 eq_refl) as (l2 & A2 & ->).
    cbn [accuracy String.eqb Ascii.eqb Bool.eqb] in L1, L2. rewrite A1 in L1. rewrite A2 in L2. injection L1 as ->. injection L2 as ->. now rewrite V. }
  rewrite V, <- L2 in L1. unfold find_lfun_glmm_internal.
  destruct M as [<-|[<-|[<-|[<-|[]]]]]; unfold accuracy in L1; cbn [String.eqb Ascii.eqb Bool.eqb] in L1 |- *; rewrite L1; [reflexivity|reflexivity| |reflexivity].
  now rewrite (S eq_refl).
Qed.
Lemma fit_inv X formula subforms data family link method control weights prev f lfun m meth con div un :
  glmm X formula subforms data family link method control weights prev = Ok (GlmmFit f lfun m meth con div un) ->
  exists w r devfun opt, find_control_with_defaults control [meth] = Ok (con, w) /\
    find_modfr_glmm (x_other X) (parse_formula X family) (x_sub X) (x_sparse X) formula subforms data = Ok m /\ mo_re _ m = Some r /\
    x_devfun X m r = Ok devfun /\ find_lfun_glmm_internal X family link m r devfun meth con = Ok lfun /\
    optimize_glmm (x_optim X) (x_inv X) lfun (mo_p _ m) (length (rt_theta _ r)) prev = Ok opt /\
    f = make_fit (rt_lower _ r) (length (rt_theta _ r)) (mo_p _ m) (x_names_theta X m) (x_names_beta X m) opt.
Proof.
  intros G. destruct (glmm_inv _ _ _ _ _ _ _ _ _ _ _ G) as (meth' & con' & w & m' & r & dv & lf & opt & div' & un' & _ & _ & C & M & R0 & D & LF & O & _ & E).
  destruct (forallb _ _); [|discriminate]. injection E as E1 E2 E3 E4 E5 _ _. subst. now exists w, r, dv, opt.
Qed.
Lemma C87_fits_main X formula subforms data family link weights method1 method2 control1 control2 prev1 prev2 fit1 fit2 lfun1 lfun2 m1 m2 meth1 meth2 con1 con2 div1 div2 un1 un2 s h1 h2 rest1 rest2 :
  glmm X formula subforms data family link method1 control1 weights prev1 = Ok (GlmmFit fit1 lfun1 m1 meth1 con1 div1 un1) ->
  glmm X formula subforms data family link method2 control2 weights prev2 = Ok (GlmmFit fit2 lfun2 m2 meth2 con2 div2 un2) ->
  written_exactly limit meth1 control1 -> written_exactly limit meth2 control2 -> one_word family -> one_word link ->
  heading write show meth1 con1 family link formula s = Ok h1 -> heading write show meth2 con2 family link formula s = Ok h2 -> h1 ++ rest1 = h2 ++ rest2 ->
  meth1 = meth2 /\ lfun1 = lfun2 /\ (prev1 = prev2 -> fit1 = fit2).
Proof.
  intros G1 G2 B1 B2 Fw Lw H1 H2 H.
  destruct (fit_inv _ _ _ _ _ _ _ _ _ _ _ _ _ _ _ _ _ G1) as (w1 & r1 & dv1 & opt1 & C1 & M1 & R1 & D1 & L1 & O1 & E1).
  destruct (fit_inv _ _ _ _ _ _ _ _ _ _ _ _ _ _ _ _ _ G2) as (w2 & r2 & dv2 & opt2 & C2 & M2 & R2 & D2 & L2 & O2 & E2).
  destruct (C87_heading_main _ _ _ _ _ _ _ _ _ _ _ _ _ _ _ _ _ _ _ _ C1 C2 B1 B2 Fw Fw Lw Lw H1 H2 H) as (EM & EV & _).
  subst meth2. rewrite M1 in M2. injection M2 as <-. rewrite R1 in R2. injection R2 as <-. rewrite D1 in D2. injection D2 as <-.
  rewrite <- (internal_same X family link m1 r1 dv1 meth1 con1 con2 _ _ _ _ C1 C2 EV), L1 in L2. injection L2 as <-.
  refine (conj eq_refl (conj eq_refl _)). intros <-. rewrite O1 in O2. injection O2 as <-. now rewrite E1, E2.
Qed.
End Unambiguous.

Lemma C87_name_main write X formula subforms data family link method control weights prev f lfun m meth con div un :
  glmm X formula subforms data family link method control weights prev = Ok (GlmmFit f lfun m meth con div un) ->
  find_approximation_name write meth con = Ok (fst (words_around meth) ++ write (value_used meth control) ++ snd (words_around meth)).
Proof. intros G. destruct (fit_inv _ _ _ _ _ _ _ _ _ _ _ _ _ _ _ _ _ G) as (w & _ & _ & _ & C & _). exact (name_eq write meth control con w C). Qed.
