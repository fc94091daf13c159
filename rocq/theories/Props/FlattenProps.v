(** C72: covariates with several subscripts in subformulas. *)
From Coq Require Import String List Reals ZArith Bool.
From Verif Require Import Model.Base Model.Subexpr Model.Flatten Spec.IndexSpec Spec.FlattenSpec Proofs.FlattenMain.
Import ListNotations.
Local Open Scope string_scope.
Notation length := List.length.

(** The substituted variable is the name on the left, and anything else is an error. *)
Theorem C72_left_side : forall lhs rhs, (forall s, find_subvar (Call [Name "~"; lhs; rhs]) = Ok s <-> subscripted s lhs) /\
  ((forall s, ~ subscripted s lhs) -> find_subvar (Call [Name "~"; lhs; rhs]) = Throw RuntimeError).
Proof. exact C72_lhs_main. Qed.
Print Assumptions C72_left_side.

(** The flat right side has, in the row of expand.grid with the indices t, the value of
    the right side at t: each array at the values of its subscripts. *)
Theorem C72_rows : forall E const to_int fn code zero indices subvar data V lhs rhs,
  described E indices subvar data V -> subscripted subvar lhs ->
  ((2 <= length indices)%nat -> not_nested rhs = true) -> ((length indices <= 1)%nat -> no_multiple rhs = true) ->
  (forall t, In t (grid (map snd indices)) -> meaning E const to_int fn code V t rhs <> None) ->
  exists rhs' v, flatten_formula (length indices) (Call [Name "~"; lhs; rhs]) = Ok (Call [Name "~"; Name subvar; rhs']) /\
  evaluate E const to_int fn (data_subform E code zero indices subvar data) rhs' = Ok (vector E v) /\
  (length v = length (grid (map snd indices)) \/ length v = 1%nat) /\
  forall r t, nth_error (grid (map snd indices)) r = Some t -> in_row v r = meaning E const to_int fn code V t rhs.
Proof. exact C72_rows_main. Qed.
Print Assumptions C72_rows.

Example C72_case : described (list Z) case_indices "ability" case_data case_V /\ subscripted "ability" case_lhs /\ not_nested case_rhs = true /\
  map (fun t => meaning (list Z) case_const case_int case_fn case_code case_V t case_rhs) (grid (map snd case_indices)) =
  [Some [11; 11; 0; 1]; Some [11; 21; 0; 2]; Some [12; 12; 0; 1]; Some [12; 22; 0; 2]; Some [13; 13; 0; 1]; Some [13; 23; 0; 2]]%Z.
Proof. exact (conj case_described case_meaning). Qed.

(** It is not so for several subscripts within several subscripts, y[z[p, m], m]: there
    are 42 values for 6 rows. *)
Theorem C72_nested_refuted : described (list Z) case_indices "ability" nested_data nested_V /\ subscripted "ability" case_lhs /\
  map (fun t => meaning (list Z) case_const case_int case_fn case_code nested_V t nested) (grid (map snd case_indices)) = [Some [21]; Some [11]; Some [22]; Some [12]; Some [23]; Some [13]]%Z /\
  exists rhs' v, flatten_formula 2 (Call [Name "~"; case_lhs; nested]) = Ok (Call [Name "~"; Name "ability"; rhs']) /\
  evaluate (list Z) case_const case_int case_fn (data_subform (list Z) case_code [0%Z] case_indices "ability" nested_data) rhs' = Ok (vector _ v) /\ length v = 42%nat.
Proof. exact (conj nested_described (conj (proj1 case_meaning) C72_nested_main)). Qed.
Print Assumptions C72_nested_refuted.

(** Nor for several subscripts when there is one index, y[p, p]: 4 values for 2 rows. *)
Theorem C72_one_index_refuted : described (list Z) single_indices "ability" case_data (fun s => if String.eqb s "m" then None else case_V s) /\
  map (fun t => meaning (list Z) case_const case_int case_fn case_code (fun s => if String.eqb s "m" then None else case_V s) t twice) (grid (map snd single_indices)) = [Some [11]; Some [22]]%Z /\
  exists v, flatten_formula 1 (Call [Name "~"; single_lhs; twice]) = Ok (Call [Name "~"; Name "ability"; twice]) /\
  evaluate (list Z) case_const case_int case_fn (data_subform (list Z) case_code [0%Z] single_indices "ability" case_data) twice = Ok v /\ a_elems _ v = [[11]; [21]; [12]; [22]]%Z.
Proof. exact (conj single_described C72_one_index_main). Qed.
Print Assumptions C72_one_index_refuted.
