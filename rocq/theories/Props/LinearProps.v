(** C78: which expressions in a substituted variable are accepted. *)
From Coq Require Import String List Reals Bool Arith ZArith.
From Verif Require Import Model.Base Model.Subexpr Spec.IndexSpec Spec.SubexprSpec Spec.LinearSpec Proofs.SubexprCases Proofs.LinearMain Proofs.LinearCases.
Import ListNotations.
Local Open Scope string_scope.
Local Open Scope R_scope.
Notation length := List.length.

(** Every linear expression is accepted, and the frame is that linear function of the frame
    of the subformula. *)
Theorem C78_accepted : forall other data subvar base dims e n g,
  matrices base -> rows_of base = length (grid dims) -> linear other data subvar dims (random base) (mf_p base) e n g ->
  (forall flat, extract_to_flatten subvar e = Ok flat -> no_clash e flat) ->
  exists f, parse_sub other subvar base dims data e = Ok (Frame f) /\ matrices f /\ mf_p f = mf_p base /\ mf_q f = mf_q base /\ rows_of f = n /\
    forall beta b, lin beta b f = g (lin beta b base).
Proof. exact C78_accepted_main. Qed.
Print Assumptions C78_accepted.

(** What is accepted is made of subscripts, sums, differences, products and quotients, and
    its value is a frame. *)
Theorem C78_form : forall other data subvar base dims e w,
  plain data -> (forall s v, In (s, v) data -> s <> subvar) -> all_calls (no_function subvar) e -> occurs subvar e = true ->
  parse_sub other subvar base dims data e = Ok w -> form subvar e /\ exists f, w = Frame f.
Proof. exact C78_form_main. Qed.
Print Assumptions C78_form.

(** Parentheses around the variable and a sign before it are refused, though the expressions
    have a meaning. *)
Theorem C78_brackets_refuted : exists other data subvar base dims c e f,
  matrices base /\ rows_of base = length (grid dims) /\ plain data /\
  (exists n g, linear other data subvar dims (random base) (mf_p base) e n g) /\ (exists h, parse_sub other subvar base dims data e = Ok (Frame h)) /\
  parse_sub other subvar base dims data (Call [Name "*"; c; Call [Name "("; e]]) = Throw RuntimeError /\
  (forall eta, length eta = rows_of base -> exists v, meaning other data subvar dims eta (Call [Name "*"; c; Call [Name "("; e]]) = Ok v /\ length v = 2%nat) /\
  (exists n g, linear other data subvar dims (random base) (mf_p base) f n g) /\ (exists h, parse_sub other subvar base dims data f = Ok (Frame h)) /\
  parse_sub other subvar base dims data (Call [Name "-"; f]) = Throw RuntimeError /\
  (forall eta, length eta = rows_of base -> exists v, meaning other data subvar dims eta (Call [Name "-"; f]) = Ok v /\ length v = 2%nat).
Proof. exact C78_brackets_main. Qed.
Print Assumptions C78_brackets_refuted.

(** s * a[i, t] - a[j, u], with s = 3. *)
Example C78_case : exists g, linear no_other case_data "a" [2%Z; 2%Z] (random case_base) (mf_p case_base) case_e 2 g /\
  matrices case_base /\ rows_of case_base = length (grid [2%Z; 2%Z]) /\ (forall flat, extract_to_flatten "a" case_e = Ok flat -> no_clash case_e flat) /\
  plain case_data /\ (forall s v, In (s, v) case_data -> s <> "a") /\ all_calls (no_function "a") case_e /\ occurs "a" case_e = true /\
  g [1; 2; 4; 8] = [1; 23].
Proof. exact C78_case_main. Qed.
