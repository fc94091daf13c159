(** C40: several indices as one; C67: which indices there are. *)
From Coq Require Import String List ZArith Lia.
From Verif Require Import Model.Base Model.Indexing Model.Subexpr Model.FindIndices Spec.IndexSpec Spec.FindIndexSpec Proofs.IndexMain Proofs.FindIndexMain.
Import ListNotations.
Local Open Scope Z_scope.

(** For any number of observations the flat index is the number of the row of
    expand.grid that holds the observation's indices. *)
Theorem C40_rows : forall l vars k, l <> [] -> length vars = length l -> (forall v, In v vars -> length v = k) ->
  (forall j, (j < k)%nat -> within l (map (fun v => nth j v 0) vars)) ->
  length (flatten_vars vars l) = k /\
  forall j, (j < k)%nat -> let f := nth j (flatten_vars vars l) 0 in
    1 <= f <= product l /\ nth (Z.to_nat (f - 1)) (grid l) [] = map (fun v => nth j v 0) vars.
Proof. exact C40_main. Qed.
Print Assumptions C40_rows.

(** It is a bijection from the tuples within the bounds to 1, ..., prod(l). *)
Theorem C40_bijection : forall l, l <> [] -> List.Forall (fun n => 1 <= n) l ->
  (forall t, In t (grid l) <-> within l t) /\ Z.of_nat (length (grid l)) = product l /\
  (forall t t', within l t -> within l t' -> multi_to_flat (map (fun i => [i]) t) l = multi_to_flat (map (fun i => [i]) t') l -> t = t') /\
  (forall f, 1 <= f <= product l -> exists t, within l t /\ multi_to_flat (map (fun i => [i]) t) l = [f]).
Proof. exact C40_bijection_main. Qed.
Print Assumptions C40_bijection.

Example C40_case : flatten_vars [[1; 2; 3; 3]; [1; 1; 1; 2]; [1; 2; 1; 4]] [3; 2; 4] = [1; 8; 3; 24] /\
  within [3; 2; 4] [3; 2; 4] /\ nth 7 (grid [3; 2; 4]) [] = [2; 1; 2].
Proof. split; [reflexivity|]. split; [|reflexivity]. repeat constructor; lia. Qed.

Local Open Scope string_scope.
(** C67: find_indices_subform returns the values of each index, in the order of the
    subscripts in the subformula, such that the flat index of every use of the variable
    is the number of the row of expand.grid with the labels of that observation.  The
    names of the indices are not in the data, and numbers have no gaps. *)
Theorem C67_rows : forall subvar subform subexpr data data' idx,
  find_indices_subform subvar subform subexpr data = Ok (data', idx) -> idx <> [] ->
  (forall s, In s (map fst idx) -> lookup data s = None) ->
  no_nesting subform -> numbers_ok subvar subform subexpr data (map fst idx) ->
  data' = data /\ (forall args, inside (indexed (Name subvar) args) subform -> args = map Name (map fst idx)) /\
  forall args, inside (indexed (Name subvar) args) subexpr ->
  exists names cols, args = map Name names /\ length names = length idx /\ Forall2 (fun s x => lookup data s = Some x) names cols /\
  forall k ids, Forall2 (fun x v => as_numeric x = map Some v /\ length v = k) cols ids ->
  (forall j, (j < k)%nat -> exists t, Forall2 (fun x l => label_at x j = Some l) cols t) ->
  let flat := flatten_vars ids (map (fun ni => index_length (snd ni)) idx) in
  length flat = k /\ forall j t, (j < k)%nat -> Forall2 (fun x l => label_at x j = Some l) cols t ->
    1 <= nth j flat 0 /\ nth_error (expand_grid (map (fun ni => labels (snd ni)) idx)) (Z.to_nat (nth j flat 0 - 1)) = Some t.
Proof. exact C67_rows_main. Qed.
Print Assumptions C67_rows.

(** Numbers with a gap: the row is of different labels. *)
Theorem C67_gaps_refuted : exists subvar subform subexpr data idx names cols ids j t t', find_indices_subform subvar subform subexpr data = Ok (data, idx) /\
  (forall s, In s (map fst idx) -> lookup data s = None) /\ no_nesting subform /\
  inside (indexed (Name subvar) (map Name names)) subexpr /\ Forall2 (fun s x => lookup data s = Some x) names cols /\
  Forall2 (fun x v => as_numeric x = map Some v /\ length v = 2%nat) cols ids /\ (j < 2)%nat /\ Forall2 (fun x l => label_at x j = Some l) cols t /\
  nth_error (expand_grid (map (fun ni => labels (snd ni)) idx)) (Z.to_nat (nth j (flatten_vars ids (map (fun ni => index_length (snd ni)) idx)) 0 - 1)) = Some t' /\ t' <> t.
Proof. exact C67_gaps_main. Qed.
Print Assumptions C67_gaps_refuted.

(** A covariate does not help if the index is its first subscript and the second one of
    the variable: a number within the covariate is not among the values of the index. *)
Theorem C67_position_refuted : exists subvar subform subexpr data idx s v z ind ix x n, find_indices_subform subvar subform subexpr data = Ok (data, idx) /\
  (forall s, In s (map fst idx) -> lookup data s = None) /\ no_nesting subform /\
  nth_error idx 1 = Some (ind, ix) /\ covariate subform data 0 ind x /\ extent 0 x n /\
  inside (indexed (Name subvar) [Name "p1"; Name s]) subexpr /\ lookup data s = Some (Num v []) /\ In z v /\ 1 <= z <= n /\ ~ In (Number z) (labels ix).
Proof. exact C67_position_main. Qed.
Print Assumptions C67_position_refuted.

(** The first index is never a variable of the data: the branch for that sets no
    index_i and so ends in an error. *)
Theorem C67_index_in_data_refuted : forall subvar subform subexpr data data' ind ix rest,
  find_indices_subform subvar subform subexpr data = Ok (data', (ind, ix) :: rest) -> lookup data ind = None.
Proof. exact C67_index_in_data_main. Qed.
Print Assumptions C67_index_in_data_refuted.

(** If a later index is, it gets the values of the index before it. *)
Theorem C67_stale_refuted : exists subvar subform subexpr data data' idx names cols ids j t t', find_indices_subform subvar subform subexpr data = Ok (data', idx) /\
  no_nesting subform /\
  inside (indexed (Name subvar) (map Name names)) subexpr /\ Forall2 (fun s x => lookup data' s = Some x) names cols /\
  Forall2 (fun x v => as_numeric x = map Some v /\ length v = 2%nat) cols ids /\ (j < 2)%nat /\ Forall2 (fun x l => label_at x j = Some l) cols t /\
  nth_error (expand_grid (map (fun ni => labels (snd ni)) idx)) (Z.to_nat (nth j (flatten_vars ids (map (fun ni => index_length (snd ni)) idx)) 0 - 1)) = Some t' /\ t' <> t.
Proof. exact C67_stale_main. Qed.
Print Assumptions C67_stale_refuted.

(** A covariate that is too short for the levels of the factor passes the check if
    another one is long enough. *)
Theorem C67_short_refuted : exists subvar subform subexpr data idx ind ix x n, find_indices_subform subvar subform subexpr data = Ok (data, idx) /\
  (forall s, In s (map fst idx) -> lookup data s = None) /\ no_nesting subform /\
  idx = [(ind, ix)] /\ covariate subform data 0 ind x /\ extent 0 x n /\ n < index_length ix.
Proof. exact C67_short_main. Qed.
Print Assumptions C67_short_refuted.

Example C67_case : let idx := [("p", Levels ["a"; "b"; "c"]); ("m", Numbers [1; 2])] in
  find_indices_subform "ability" form2 expr2 data2 = Ok (data2, idx) /\ (forall s, In s (map fst idx) -> lookup data2 s = None) /\
  no_nesting form2 /\ numbers_ok "ability" form2 expr2 data2 (map fst idx) /\ inside (at2 "ability" "p2" "m1") expr2 /\
  flatten_vars [[3; 1; 2]; [2; 1; 2]] [3; 2] = [6; 1; 5] /\ nth_error (expand_grid (map (fun ni => labels (snd ni)) idx)) 4 = Some [Level "b"; Number 2].
Proof. exact C67_case_main. Qed.
