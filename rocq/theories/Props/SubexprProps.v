(** C41 and C43: expressions of substituted variables. *)
From Coq Require Import String List Reals Bool Arith ZArith Lia Lra.
From Verif Require Import Model.Base Model.Indexing Model.Subexpr Spec.IndexSpec Spec.SubexprSpec Spec.LinearSpec Proofs.SubexprLemmas Proofs.FrameMain Proofs.SubexprMain Proofs.VectorTimes Proofs.SubexprCases Proofs.SubMatchMain.
Import ListNotations.
Local Open Scope string_scope.
Local Open Scope R_scope.

(** The frame that parse_sub returns has, for all coefficients, the linear predictor
    that the expression means when the variable stands for the array of its own
    linear predictor. *)
Theorem C41_linear : forall other data subvar base dims e flat f beta b,
  matrices base -> rows_of base = length (grid dims) -> plain data ->
  find_dim_sub subvar None e = Ok (Some (length dims)) -> extract_to_flatten subvar e = Ok flat -> no_clash e flat ->
  all_calls (no_function subvar) e -> all_calls (subscripts other data subvar dims) e ->
  all_calls (multipliers other data subvar (random base) dims (lin beta b base)) e ->
  parse_sub other subvar base dims data e = Ok (Frame f) ->
  meaning other data subvar dims (lin beta b base) e = Ok (lin beta b f) /\ matrices f /\ mf_p f = mf_p base /\ mf_q f = mf_q base /\ random f = random base.
Proof. exact C41_linear_main. Qed.
Print Assumptions C41_linear.

(** Not so for a product of the variable with a vector, when there are random effects. *)
Theorem C41_vector_refuted : exists other data subvar base dims e f beta b,
  matrices base /\ rows_of base = length (grid dims) /\ plain data /\
  find_dim_sub subvar None e = Ok (Some (length dims)) /\ extract_to_flatten subvar e = Ok [] /\
  all_calls (no_function subvar) e /\ all_calls (subscripts other data subvar dims) e /\
  parse_sub other subvar base dims data e = Ok (Frame f) /\
  exists v, meaning other data subvar dims (lin beta b base) e = Ok v /\ length v = rows_of f /\ v <> lin beta b f.
Proof. exact C41_vector_main. Qed.
Print Assumptions C41_vector_refuted.

(** Nor when a variable has a name like that of two subscripts together. *)
Theorem C41_clash_refuted : exists other data subvar base dims e flat f beta b,
  matrices base /\ rows_of base = length (grid dims) /\ plain data /\
  find_dim_sub subvar None e = Ok (Some (length dims)) /\ extract_to_flatten subvar e = Ok flat /\
  all_calls (no_function subvar) e /\ all_calls (subscripts other data subvar dims) e /\
  all_calls (multipliers other data subvar (random base) dims (lin beta b base)) e /\
  parse_sub other subvar base dims data e = Ok (Frame f) /\
  exists v, meaning other data subvar dims (lin beta b base) e = Ok v /\ length v = rows_of f /\ v <> lin beta b f.
Proof. exact C41_clash_main. Qed.
Print Assumptions C41_clash_refuted.

(** What the product with a vector of one number for each row is, if there are random
    effects: effect i of row k is multiplied by element (i + q k) mod n of the vector, where
    q is the number of random effects and n that of rows, instead of by element k; with one
    random effect these are the same. *)
Theorem C41_vector : forall f Zt a beta b, matrices f -> mf_Zt f = Some Zt -> length a = rows_of f -> (0 < rows_of f)%nat -> (0 < mf_p f)%nat -> (0 < mf_q f)%nat ->
  length b = mf_q f -> exists g, times_fr f a = Ok g /\ rows_of g = rows_of f /\ forall k, (k < rows_of f)%nat ->
    nth k (lin beta b g) 0 = nth k a 0 * dot (nth k (mf_X f) []) beta +
      dot (nth k Zt []) (by_rows (mf_q f) (fun i => nth ((i + mf_q f * k) mod rows_of f) a 0 * nth i b 0)) /\
    (mf_q f = 1%nat -> nth k (lin beta b g) 0 = nth k a 0 * nth k (lin beta b f) 0).
Proof. exact vector_main. Qed.
Print Assumptions C41_vector.
(** A frame with three rows and one random effect, and one with two. *)
Example C41_vector_case : matrices (mkMframe 1 [[1]; [2]; [3]] 1 (Some [[1]; [2]; [1]])) /\ matrices (mkMframe 1 [[1]; [2]; [3]] 2 (Some [[1; 0]; [0; 1]; [1; 0]])).
Proof. unfold matrices. cbn. repeat split; repeat constructor. Qed.

(** An expression with a number as an operand, or in one, is always refused
    with an error of R. *)
Theorem C41_no_numbers : forall subvar e, ~ all_calls no_numbers e -> modify_subexpr subvar e = Throw RuntimeError.
Proof. exact C41_no_numbers_main. Qed.
Print Assumptions C41_no_numbers.
(** 2 * a *)
Example C41_number_case : ~ all_calls no_numbers (Call [Name "*"; Const 2; Name "a"]).
Proof.
  intros H. cbn in H. destruct H as [H _]. unfold no_numbers in H. cbn in H. inversion H as [|? ? E _]. discriminate E.
Qed.

Example C41_case : exists f, parse_sub no_other "a" case_base [2%Z; 2%Z] case_data case_e = Ok (Frame f) /\
  rows_of f = 2%nat /\ matrices case_base /\ plain case_data /\ find_dim_sub "a" None case_e = Ok (Some 2%nat) /\
  extract_to_flatten "a" case_e = Ok case_flat /\ no_clash case_e case_flat /\ all_calls (no_function "a") case_e /\
  all_calls (subscripts no_other case_data "a" [2%Z; 2%Z]) case_e /\
  all_calls (multipliers no_other case_data "a" (random case_base) [2%Z; 2%Z] (lin [1] [1; -1] case_base)) case_e.
Proof. exact C41_case_main. Qed.

(** The test of the numbers of variables in the terms only finds whether there is a
    variable in any of the terms. *)
Theorem C43_checks : forall subvars subexprs,
  check_subexprs subvars subexprs = Ok tt <-> exists e, In e subexprs /\ involves subvars e.
Proof. exact C43_checks_main. Qed.
Print Assumptions C43_checks.

(** Terms without a variable pass the test, but not the function as a whole. *)
Theorem C43_none_refuted : exists subvars subexprs,
  check_subexprs subvars subexprs = Ok tt /\ exists e, In e subexprs /\ ~ involves subvars e.
Proof. exact C43_none_main. Qed.
Print Assumptions C43_none_refuted.
Theorem C43_every_term : forall subvars subexprs r, subvars <> [] ->
  match_subform_subexpr subvars subexprs = Ok r -> forall e, In e subexprs -> involves subvars e.
Proof. exact C43_every_term_main. Qed.
Print Assumptions C43_every_term.

(** A term with two variables is accepted. *)
Theorem C43_two_refuted : exists subvars subexprs r,
  match_subform_subexpr subvars subexprs = Ok r /\ exists e, In e subexprs /\ involves_two subvars e.
Proof. exact C43_two_main. Qed.
Print Assumptions C43_two_refuted.

Example C43_case : let e := Call [Name "-"; Call [Name "["; Name "a"; Name "i"]; Call [Name "["; Name "a"; Name "j"]] in
  match_subform_subexpr ["a"] [e] = Ok [Some e] /\ involves ["a"] e.
Proof. split; [reflexivity|]. exists "a". split; [now left|reflexivity]. Qed.
