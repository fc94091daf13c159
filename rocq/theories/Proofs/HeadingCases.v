(** Cases for C87. *)
From Coq Require Import String Ascii List ZArith Arith Reals Bool Lia Lra.
From Verif Require Import Model.Base Model.Family Model.GLMM Model.SplitFrame Model.Vectors Model.Frames Model.Control Model.Subexpr Model.SplitFormula Model.FindModfr Model.Fit Model.Glmm Model.SaveFile Model.Heading
  Spec.Numbers Spec.ControlSpec Spec.SaveSpec Spec.FitSpec Spec.GlmmSpec Spec.HeadingSpec Proofs.ControlMain Proofs.SaveLemmas Proofs.SaveCases Proofs.HOLMain Proofs.MirrorCases Proofs.FindModfrCases Proofs.GlmmMain Proofs.GlmmCases Proofs.HeadingMain.
Import ListNotations.
Local Open Scope string_scope.
Local Open Scope R_scope.
Notation length := List.length.

Definition case_show (f : rexpr) : string := ((match f with Call (Name _ :: Name _ :: _) => "y ~ (1 | g)" | _ => "?" end) ++ newline)%string.
Lemma case_show_line : one_line case_show.
Proof.
  intros f. unfold case_show. match goal with |- context [(?l ++ newline)%string] => exists l end.
  destruct f as [| |[|[] [|[] l]]]; (split; [discriminate|split; reflexivity]).
Qed.
Definition other_options : named := [("nAGQ", 7); ("nSL", 2)].
Definition case_heading : string :=
  ("Generalized linear mixed model fit by maximum likelihood [glmmFit] " ++ newline ++ "Likelihood approximation: Laplace approximation, order  1 " ++ newline ++ " " ++ newline
   ++ "Family: poisson ( log ) " ++ newline ++ "Formula: y ~ (1 | g)" ++ newline ++ newline)%string.

Lemma laplace_exact control : given "order" control = None -> written_exactly (10 ^ 15) "Laplace" control.
Proof. intros G. exists 1%Z. split; [|reflexivity]. unfold value_used. cbn [accuracy String.eqb Ascii.eqb Bool.eqb]. rewrite G. reflexivity. Qed.
Lemma case_fit control : given "order" control = None -> given "check_Laplace" control = None -> exists f lfun con,
  glmm (case_X case_dev []) simple_formula [] [] "poisson" "log" ["Laplace"] control [] None = Ok (GlmmFit f lfun case_h "Laplace" con None false) /\
  heading decimal case_show "Laplace" con "poisson" "log" simple_formula (FormulaList []) = Ok case_heading /\ (forall n v, given n control = Some v -> n <> "check_Laplace" -> lookup n con = Some v) /\
  (control = [] -> lookup "nAGQ" con = None).
Proof.
  intros G GC. destruct (laplace_control control G) as (con & w & E & O & CL). destruct (laplace_lfun (case_X case_dev []) "poisson" "log" case_h case_hr con O) as (lf & L & V).
  assert (OP : optimize_glmm stay (fun _ => Ok [[1; 0]; [0; 1]]) lf (mo_p _ case_h) (length (rt_theta _ case_hr)) None = Ok ([1 / 2; 0], mscale 2 [[1; 0]; [0; 1]]))
    by (apply (stay_optimize _ _ _ _ _ [1 / 2; 0] 0); [reflexivity|cbn; lia|reflexivity|exact half_start|apply V]).
  assert (Z : forall b, In b (rt_lower _ case_hr) -> b = Zero) by (intros b [<-|[]]; reflexivity).
  assert (C0 : used "check_Laplace" 0 control = 0) by (unfold used; now rewrite GC).
  eexists; exists lf, con. split; [|split; [|split]].
  - exact (proj1 (glmm_run (case_X case_dev []) simple_formula [] [] "poisson" "log" "Laplace" control [] None con w case_h case_hr case_dev lf _ _
      (List.Forall_nil _) E (simple_frame case_dev [] "poisson" [] [] not_gaussian) eq_refl eq_refl L OP CL Z) C0).
  - rewrite (heading_eq decimal case_show _ _ _ _ _ _ _ (name_eq decimal _ _ _ _ E)). unfold value_used. cbn [accuracy String.eqb Ascii.eqb Bool.eqb]. rewrite G.
    change (documented_default "order") with (IZR 1). rewrite decimal_IZR. reflexivity.
  - intros n v Gn N. destruct (C39_main control "Laplace") as (con' & u & v' & E' & _ & Gi & _); [now left|]. rewrite E in E'. injection E' as -> _. apply (Gi n v Gn); [intros [? ?]; discriminate|exact N].
  - intros ->. cbn in E. unfold exceeds in E. destruct (Rlt_dec 1 1) as [Lt|_]; [lra|]. injection E as <- _. reflexivity.
Qed.
Lemma C87_case_main : writes_numbers decimal whole_value whole_part (10 ^ 15) /\ one_line case_show /\ one_word "poisson" /\ one_word "log" /\
  written_exactly (10 ^ 15) "Laplace" [] /\ written_exactly (10 ^ 15) "Laplace" other_options /\
  exists X f1 f2 lfun1 lfun2 con1 con2,
    glmm X simple_formula [] [] "poisson" "log" ["Laplace"] [] [] None = Ok (GlmmFit f1 lfun1 case_h "Laplace" con1 None false) /\
    glmm X simple_formula [] [] "poisson" "log" ["Laplace"] other_options [] None = Ok (GlmmFit f2 lfun2 case_h "Laplace" con2 None false) /\
    con1 <> con2 /\
    heading decimal case_show "Laplace" con1 "poisson" "log" simple_formula (FormulaList []) = Ok case_heading /\
    heading decimal case_show "Laplace" con2 "poisson" "log" simple_formula (FormulaList []) = Ok case_heading.
Proof.
  refine (conj (decimal_writes _) (conj case_show_line (conj (conj eq_refl eq_refl) (conj (conj eq_refl eq_refl) (conj (laplace_exact [] eq_refl) (conj (laplace_exact other_options eq_refl) _)))))).
  destruct (case_fit [] eq_refl eq_refl) as (f1 & l1 & con1 & G1 & H1 & _ & N1). destruct (case_fit other_options eq_refl eq_refl) as (f2 & l2 & con2 & G2 & H2 & N2 & _).
  exists (case_X case_dev []), f1, f2, l1, l2, con1, con2. refine (conj G1 (conj G2 (conj _ (conj H1 H2)))).
  intros ->. specialize (N1 eq_refl). rewrite (N2 "nAGQ" 7 eq_refl ltac:(discriminate)) in N1. discriminate.
Qed.
Lemma C87_subformula_case_main : print_subformula case_show (FormulaList [simple_formula; Const 1]) = ("Subformulas: " ++ newline ++ "y ~ (1 | g)" ++ newline ++ "?" ++ newline)%string /\
  print_subformula case_show (OneFormula simple_formula) = ("Subformula: y ~ (1 | g)" ++ newline)%string.
Proof. split; reflexivity. Qed.
