(** C74: formulas with subformulas. *)
From Coq Require Import String List Reals ZArith Permutation.
From Verif Require Import Model.Base Model.Family Model.GLMM Model.SplitFrame Model.Frames Model.Indexing Model.Subexpr Model.FindIndices Model.Flatten
  Model.SplitFormula Model.FindModfr Spec.Numbers Spec.IndexSpec Spec.GLMMSpec Spec.SplitSpec Spec.FramesSpec Spec.SubexprSpec Spec.FlattenSpec Spec.FindModfrSpec
  Proofs.FindModfrMain Proofs.FindModfrCases.
Import ListNotations.
Local Open Scope string_scope.
Local Open Scope R_scope.
Notation length := List.length.

(** The linear predictor of the frame that find_modfr_glmm returns is that of the formula
    without its Sub() terms, plus the value of each Sub() term when its variable stands for
    the linear predictor of the subformula; each Sub() term belongs to one subformula if the
    subformulas have different variables. *)
Theorem C74_predictor : forall other parse_formula parse_subformula sparse formula subforms data form0 subexprs m,
  makes_sparse sparse -> makes_frames parse_subformula ->
  split_formula formula = Ok (form0, subexprs) -> subexprs <> [] ->
  find_modfr_glmm other parse_formula parse_subformula sparse formula subforms data = Ok m ->
  exists m0 parts, parse_formula form0 = Ok m0 /\ Forall2 (part_of parse_subformula data subexprs) subforms parts /\
  (NoDup (map pa_var parts) -> Permutation (map pa_expr parts) subexprs) /\
  forall n, proper n m0 -> List.Forall (usable other) parts ->
    proper n m /\ mo_response _ m = mo_response _ m0 /\ mo_weights _ m = mo_weights _ m0 /\
    forall q0 qs, fit m0 q0 -> Forall2 (fun p q => fit (pa_frame p) q) parts qs ->
    exists vs, Forall2 (fun pq v => sub_term other (fst pq) (snd pq) = Ok v /\ length v = n) (combine parts qs) vs /\
    forall k, (k < n)%nat -> predictor m (all_beta (q0 :: qs)) (all_theta (q0 :: qs)) (all_u (q0 :: qs)) k =
      predictor m0 (fst (fst q0)) (snd (fst q0)) (snd q0) k + fold_right Rplus 0 (map (fun v => nth k v 0) vs).
Proof. exact C74_main. Qed.
Print Assumptions C74_predictor.

(** In the row with the indices t the linear predictor of a subformula has the values of
    its covariates at t. *)
Theorem C74_rows : forall fn indices s lhs data V xs zs m beta theta u r t,
  described R indices s data V -> subscripted s lhs -> frame_for fn indices s lhs data xs zs m ->
  (forall x, In x xs \/ In x zs -> suitable fn indices V x) -> length beta = length xs ->
  nth_error (grid (map snd indices)) r = Some t ->
  predictor m beta theta u r = sumR (length xs) (fun c => nth c beta 0 * number (value_at fn V t (nth c xs (Const 0)))) +
    sumR (length zs) (fun j => effect m theta u j * number (value_at fn V t (nth j zs (Const 0)))).
Proof. exact C74_rows_main. Qed.
Print Assumptions C74_rows.

(** A subformula whose variable is in none of the Sub() terms is an error (though the
    code gives a warning for this), but if there are no Sub() terms all the subformulas are
    ignored. *)
Theorem C74_unused : forall other parse_formula parse_subformula sparse formula subforms data form0 subexprs f s,
  split_formula formula = Ok (form0, subexprs) -> subexprs <> [] -> In f subforms -> find_subvar f = Ok s -> (forall e, In e subexprs -> occurs s e = false) ->
  forall m, find_modfr_glmm other parse_formula parse_subformula sparse formula subforms data <> Ok m.
Proof. exact C74_unused_main. Qed.
Print Assumptions C74_unused.
Theorem C74_ignored_refuted : forall other parse_formula parse_subformula sparse formula subforms data form0,
  split_formula formula = Ok (form0, []) -> find_modfr_glmm other parse_formula parse_subformula sparse formula subforms data = parse_formula form0.
Proof. exact C74_no_sub_main. Qed.
Print Assumptions C74_ignored_refuted.

(** Two subformulas of one variable are accepted, and the Sub() term is there twice. *)
Theorem C74_same_variable_refuted : exists m,
  find_modfr_glmm case_other case_formula_frame case_sub_frame case_sparse case_formula [case_subform; case_subform] case_data = Ok m /\
  split_formula case_formula = Ok (Call [Name "~"; Name "y"; Const 0], [case_e]) /\ mo_p _ m = 2%nat /\ nrandom m = 6%nat /\
  mo_p _ case_m0 = O /\ nrandom case_m0 = O /\ mo_p _ case_base = 1%nat /\ nrandom case_base = 3%nat.
Proof. exact C74_same_variable_main. Qed.
Print Assumptions C74_same_variable_refuted.

(** y ~ Sub(a[p1] - a[p2]) with a[p] ~ 0 + x[p] + (1 | p). *)
Example C74_case : makes_sparse case_sparse /\ makes_frames case_sub_frame /\ split_formula case_formula = Ok (Call [Name "~"; Name "y"; Const 0], [case_e]) /\
  (exists m, find_modfr_glmm case_other case_formula_frame case_sub_frame case_sparse case_formula [case_subform] case_data = Ok m) /\
  proper 2 case_m0 /\ (forall p, part_of case_sub_frame case_data [case_e] case_subform p <-> p = case_part) /\ usable case_other case_part.
Proof. exact (conj case_sparse_makes (conj case_sub_frame_makes (conj case_split (conj case_found (conj case_m0_proper (conj case_part_of case_usable)))))). Qed.
Example C74_rows_case : described R [("p", 3%Z)] "a" (covariates case_data) case_V /\ subscripted "a" (at1 "a" "p") /\
  frame_for case_fn [("p", 3%Z)] "a" (at1 "a" "p") (covariates case_data) case_xs case_zs case_base /\
  (forall x, In x case_xs \/ In x case_zs -> suitable case_fn [("p", 3%Z)] case_V x) /\ nth_error (grid (map snd [("p", 3%Z)])) 2 = Some [3%Z].
Proof. exact (conj case_described (conj (sub_index "a" _ _ (sub_name "a")) (conj case_frame (conj case_suitable eq_refl)))). Qed.
(** Data that are changed when the indices are found. *)
Example C74_data_case : exists d idx, find_indices_subform "a" two_subform (at2_ "a" "p1" "k1") (columns two_data) = Ok (d, idx) /\
  forall data', with_columns two_data d data' <->
    data' = [("p1", VFac [Some 1%Z; Some 2%Z] ["A"; "B"]); ("k1", VFac [Some 2%Z; Some 1%Z] ["u"; "v"]); ("k", VChr ["u"; "v"])].
Proof. exact two_updated. Qed.
