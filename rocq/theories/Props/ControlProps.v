(** C39: the options of a method. *)
From Coq Require Import String List Reals Lra.
From Verif Require Import Model.Base Model.Control Spec.ControlSpec Proofs.ControlMain.
Import ListNotations.
Local Open Scope string_scope.
Local Open Scope R_scope.

(** For the four methods the list is completed: every option of the method has a
    value, the user's if there is one; for SR the number of quadrature points is
    computed from nSL; the check of the Laplace approximation is switched off except
    for the first-order Laplace method; the warnings name the options that do not
    exist and those of other methods. *)
Theorem C39_completed : forall control m, In m methods -> exists con unknown not_needed,
  find_control_with_defaults control [m] = Ok (con, (unknown, not_needed)) /\
  (forall name, In name (options_of m) -> lookup name con <> None) /\
  (forall name v, given name control = Some v -> ~ (m = "SR" /\ name = "nAGQ") -> name <> "check_Laplace" -> lookup name con = Some v) /\
  (forall name, given name control = None -> In name (options_of m) -> name <> "check_Laplace" -> lookup name con = Some (documented_default name)) /\
  (m = "SR" -> exists level, lookup "nSL" con = Some level /\ lookup "nAGQ" con = Some (Rpower 2 (level + 1) - 1)) /\
  (m <> "Laplace" -> lookup "check_Laplace" con = Some 0) /\
  (m = "Laplace" -> exists order, lookup "order" con = Some order /\
     (1 < order -> lookup "check_Laplace" con = Some 0) /\
     (order <= 1 -> lookup "check_Laplace" con = Some (match given "check_Laplace" control with Some v => v | None => 0 end))) /\
  (forall name, In name unknown <-> In name (map fst control) /\ ~ exists m', In m' methods /\ In name (options_of m')) /\
  (forall name, In name not_needed <-> In name (map fst control) /\ (exists m', In m' methods /\ In name (options_of m')) /\ ~ In name (options_of m)).
Proof. exact C39_main. Qed.
Print Assumptions C39_completed.

(** Anything else than one of the four names is an error. *)
Theorem C39_unknown_method : forall control method, (forall m, method = [m] -> ~ In m methods) ->
  find_control_with_defaults control method = Throw RuntimeError.
Proof. exact C39_unknown_main. Qed.
Print Assumptions C39_unknown_method.

(** The default of check_Laplace is not the documented one. *)
Theorem C39_default_refuted : exists con w, find_control_with_defaults [] ["Laplace"] = Ok (con, w) /\
  lookup "check_Laplace" con = Some 0 /\ documented_default "check_Laplace" = 1.
Proof. exact C39_documented_main. Qed.
Print Assumptions C39_default_refuted.

(** nSL = 4 with an attempt to set nAGQ, an option of another method and one that
    does not exist. *)
Example C39_case : exists con, find_control_with_defaults [("nSL", 2); ("nAGQ", 20); ("nISS", 5); ("nSL", 4)] ["SR"] = Ok (con, (["nISS"], ["nAGQ"])) /\
  lookup "nSL" con = Some 4 /\ lookup "nAGQ" con = Some (2 ^ 5 - 1) /\ lookup "nISS" con = Some 5.
Proof.
  eexists. split; [reflexivity|]. split; [reflexivity|]. split; [|reflexivity].
  unfold lookup. cbn [find set_name set_names fold_left conSR fst snd String.eqb Ascii.eqb Bool.eqb].
  replace (4 + 1) with (INR 5) by (cbn; lra). rewrite Rpower_pow by lra. reflexivity.
Qed.

Example C39_other : find_control_with_defaults [("nSL", 2)] ["sr"] = Throw RuntimeError.
Proof. reflexivity. Qed.
