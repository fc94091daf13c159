(** C87: what is printed above a fit.  write and show are what R writes for a number and for
    a formula; value reads a number. *)
From Coq Require Import String List ZArith Reals.
From Verif Require Import Model.Base Model.Family Model.GLMM Model.SplitFrame Model.Vectors Model.Frames Model.Subexpr Model.SplitFormula Model.FindModfr Model.Control Model.Fit Model.Glmm Model.SaveFile Model.Heading
  Spec.Numbers Spec.ControlSpec Spec.SaveSpec Spec.FitSpec Spec.GlmmSpec Spec.HeadingSpec Proofs.HOLMain Proofs.MirrorCases Proofs.GlmmCases Proofs.SaveCases Proofs.HeadingMain Proofs.HeadingCases.
Import ListNotations.
Local Open Scope string_scope.

(** The name of the approximation of every fit is found, and has the value of the option of
    the method that was given, or the documented default. *)
Theorem C87_name : forall write X formula subforms data family link method control weights prev f lfun m meth con div un,
  glmm X formula subforms data family link method control weights prev = Ok (GlmmFit f lfun m meth con div un) ->
  find_approximation_name write meth con = Ok (fst (words_around meth) ++ write (value_used meth control) ++ snd (words_around meth)).
Proof. exact C87_name_main. Qed.
Print Assumptions C87_name.

(** Other methods are an error. *)
Theorem C87_other : forall write meth con, ~ In meth methods -> find_approximation_name write meth con = Throw RuntimeError.
Proof. exact name_other. Qed.
Print Assumptions C87_other.

(** Method, value of its option, family, link and formulas can be read from the text,
    whatever is printed after it. *)
Theorem C87_heading : forall write value round limit, writes_numbers write value round limit -> forall show, one_line show ->
  forall m1 m2 c1 c2 con1 con2 w1 w2 family1 family2 link1 link2 f1 f2 s1 s2 h1 h2 rest1 rest2,
  find_control_with_defaults c1 [m1] = Ok (con1, w1) -> find_control_with_defaults c2 [m2] = Ok (con2, w2) ->
  written_exactly limit m1 c1 -> written_exactly limit m2 c2 ->
  one_word family1 -> one_word family2 -> one_word link1 -> one_word link2 ->
  heading write show m1 con1 family1 link1 f1 s1 = Ok h1 -> heading write show m2 con2 family2 link2 f2 s2 = Ok h2 -> h1 ++ rest1 = h2 ++ rest2 ->
  m1 = m2 /\ value_used m1 c1 = value_used m2 c2 /\ family1 = family2 /\ link1 = link2 /\ show f1 = show f2 /\
  map show (formulas s1) = map show (formulas s2) /\ rest1 = rest2.
Proof. exact C87_heading_main. Qed.
Print Assumptions C87_heading.

(** Two fits of a model with the same heading have the same approximation to the
    loglikelihood, and the same estimates if both started at the same place. *)
Theorem C87_fits : forall write value round limit, writes_numbers write value round limit -> forall show, one_line show ->
  forall X formula subforms data family link weights method1 method2 control1 control2 prev1 prev2 fit1 fit2 lfun1 lfun2 m1 m2 meth1 meth2 con1 con2 div1 div2 un1 un2 s h1 h2 rest1 rest2,
  glmm X formula subforms data family link method1 control1 weights prev1 = Ok (GlmmFit fit1 lfun1 m1 meth1 con1 div1 un1) ->
  glmm X formula subforms data family link method2 control2 weights prev2 = Ok (GlmmFit fit2 lfun2 m2 meth2 con2 div2 un2) ->
  written_exactly limit meth1 control1 -> written_exactly limit meth2 control2 -> one_word family -> one_word link ->
  heading write show meth1 con1 family link formula s = Ok h1 -> heading write show meth2 con2 family link formula s = Ok h2 -> h1 ++ rest1 = h2 ++ rest2 ->
  meth1 = meth2 /\ lfun1 = lfun2 /\ (prev1 = prev2 -> fit1 = fit2).
Proof. exact C87_fits_main. Qed.
Print Assumptions C87_fits.

(** Two fits with different lists of options that meet the hypotheses, and their heading;
    two subformulas and one. *)
Example C87_case : writes_numbers decimal whole_value whole_part (10 ^ 15) /\ one_line case_show /\ one_word "poisson" /\ one_word "log" /\
  written_exactly (10 ^ 15) "Laplace" [] /\ written_exactly (10 ^ 15) "Laplace" other_options /\
  exists X f1 f2 lfun1 lfun2 con1 con2,
    glmm X simple_formula [] [] "poisson" "log" ["Laplace"] [] [] None = Ok (GlmmFit f1 lfun1 case_h "Laplace" con1 None false) /\
    glmm X simple_formula [] [] "poisson" "log" ["Laplace"] other_options [] None = Ok (GlmmFit f2 lfun2 case_h "Laplace" con2 None false) /\
    con1 <> con2 /\
    heading decimal case_show "Laplace" con1 "poisson" "log" simple_formula (FormulaList []) = Ok case_heading /\
    heading decimal case_show "Laplace" con2 "poisson" "log" simple_formula (FormulaList []) = Ok case_heading.
Proof. exact C87_case_main. Qed.
Example C87_subformula_case :
  print_subformula case_show (FormulaList [simple_formula; Const 1]) = "Subformulas: " ++ newline ++ "y ~ (1 | g)" ++ newline ++ "?" ++ newline /\
  print_subformula case_show (OneFormula simple_formula) = "Subformula: y ~ (1 | g)" ++ newline.
Proof. exact C87_subformula_case_main. Qed.
