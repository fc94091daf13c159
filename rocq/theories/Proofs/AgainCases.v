(** Cases for C89. *)
From Coq Require Import String List Reals Bool.
From Verif Require Import Model.Base Model.Family Model.Frames Model.Fit Model.Glmm Model.Control Spec.Numbers Spec.ControlSpec
  Proofs.HOLMain Proofs.MirrorCases Proofs.FindModfrCases Proofs.GlmmMain Proofs.GlmmCases Proofs.ControlMain Proofs.AgainMain.
Import ListNotations.
Local Open Scope string_scope.
Local Open Scope R_scope.

Lemma C89_case_main : exists con, find_control_with_defaults [("nSL", 4); ("nISS", 5)] ["SR"] = Ok (con, (["nISS"], [])) /\
  map fst con = ["nSL"; "nISS"; "nAGQ"; "check_Laplace"] /\ find_control_with_defaults con ["SR"] = Ok (con, (["nISS"], ["nAGQ"; "check_Laplace"])).
Proof.
  eexists. split; [reflexivity|]. split; [reflexivity|]. exact (again_eq [("nSL", 4); ("nISS", 5)] "SR" _ (["nISS"], []) conSR eq_refl eq_refl).
Qed.
Lemma C89_fit_case_main : exists X f lfun con d, glmm X simple_formula [] [] "binomial" "logit" ["Laplace"] [("check_Laplace", 1)] [] None = Ok (GlmmFit f lfun case_h "Laplace" con (Some d) true) /\
  con <> [("check_Laplace", 1)] /\ glmm X simple_formula [] [] "binomial" "logit" ["Laplace"] con [] None = Ok (GlmmFit f lfun case_h "Laplace" con (Some d) true).
Proof.
  destruct C76_check_case_main as (X & f & lfun & con & d & _ & G & _). exists X, f, lfun, con, d. split; [exact G|].
  destruct (C89_glmm_main _ _ _ _ _ _ _ _ _ _ _ _ _ _ _ _ _ G) as (_ & G2 & _). split; [|exact G2].
  intros ->. destruct (glmm_inv _ _ _ _ _ _ _ _ _ _ _ G) as (meth & con' & w & m' & r & dv & lf & opt & div' & un' & _ & EM & C & _ & _ & _ & _ & _ & _ & E).
  destruct (forallb _ _); [|discriminate]. injection EM as <-. injection E as _ _ _ E _ _. subst con'.
  destruct (C39_main [("check_Laplace", 1)] "Laplace") as (k & u & n & F & A & _); [now left|]. rewrite C in F. injection F as <- _. apply (A "order"); [now left|reflexivity].
Qed.
