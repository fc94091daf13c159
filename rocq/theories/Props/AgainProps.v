(** C89: the options kept with a fit, given again. *)
From Coq Require Import String List Reals.
From Verif Require Import Model.Base Model.Family Model.Frames Model.Fit Model.Glmm Model.Control Spec.Numbers Spec.ControlSpec
  Proofs.HOLMain Proofs.MirrorCases Proofs.FindModfrCases Proofs.GlmmCases Proofs.AgainMain Proofs.AgainCases.
Import ListNotations.
Local Open Scope string_scope.
Local Open Scope R_scope.

(** A completed list of options is complete: completing it again does not change it. *)
Theorem C89_again : forall control method con w, find_control_with_defaults control method = Ok (con, w) ->
  exists w', find_control_with_defaults con method = Ok (con, w').
Proof. exact C89_again_main. Qed.
Print Assumptions C89_again.

(** The method and the options that a fit keeps give the same fit again, with the same other
    arguments, and with the frame it keeps they give its loglikelihood. *)
Theorem C89_glmm : forall X formula subforms data family link method control weights prev f lfun m meth con div un,
  glmm X formula subforms data family link method control weights prev = Ok (GlmmFit f lfun m meth con div un) ->
  method = [meth] /\ glmm X formula subforms data family link [meth] con weights prev = Ok (GlmmFit f lfun m meth con div un) /\
  find_lfun_glmm X family link m [meth] con = Ok lfun.
Proof. exact C89_glmm_main. Qed.
Print Assumptions C89_glmm.

(** The warnings the second time: the same unknown names; besides those of other methods that
    were given, the options that have been added to the list. *)
Theorem C89_warnings : forall control m con unknown not_needed, find_control_with_defaults control [m] = Ok (con, (unknown, not_needed)) ->
  exists unknown' not_needed', find_control_with_defaults con [m] = Ok (con, (unknown', not_needed')) /\
  (forall n, In n unknown' <-> In n unknown) /\
  (forall n, In n not_needed' <-> In n not_needed \/ (m <> "Laplace" /\ n = "check_Laplace") \/ (m = "SR" /\ n = "nAGQ")).
Proof. exact C89_warnings_main. Qed.
Print Assumptions C89_warnings.

(** So for every method but Laplace there is a warning about the list that glmm itself made
    without any. *)
Theorem C89_warning_refuted : forall m, In m methods -> m <> "Laplace" -> exists con, find_control_with_defaults [] [m] = Ok (con, ([], [])) /\
  exists not_needed, find_control_with_defaults con [m] = Ok (con, ([], not_needed)) /\ In "check_Laplace" not_needed.
Proof. exact C89_warning_main. Qed.
Print Assumptions C89_warning_refuted.

(** An option that does not exist is kept and is reported again; the two that were added are
    reported. *)
Example C89_case : exists con, find_control_with_defaults [("nSL", 4); ("nISS", 5)] ["SR"] = Ok (con, (["nISS"], [])) /\
  map fst con = ["nSL"; "nISS"; "nAGQ"; "check_Laplace"] /\ find_control_with_defaults con ["SR"] = Ok (con, (["nISS"], ["nAGQ"; "check_Laplace"])).
Proof. exact C89_case_main. Qed.
(** A fit whose list has been completed. *)
Example C89_fit_case : exists X f lfun con d, glmm X simple_formula [] [] "binomial" "logit" ["Laplace"] [("check_Laplace", 1)] [] None = Ok (GlmmFit f lfun case_h "Laplace" con (Some d) true) /\
  con <> [("check_Laplace", 1)] /\ glmm X simple_formula [] [] "binomial" "logit" ["Laplace"] con [] None = Ok (GlmmFit f lfun case_h "Laplace" con (Some d) true).
Proof. exact C89_fit_case_main. Qed.
