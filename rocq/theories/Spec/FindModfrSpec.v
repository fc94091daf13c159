(** Formulas with subformulas: what the linear predictor should be. *)
From Coq Require Import String List Reals Bool Arith ZArith.
From Verif Require Import Model.Base Model.Family Model.GLMM Model.SplitFrame Model.Frames Model.Indexing Model.Subexpr Model.FindIndices Model.Flatten
  Model.SplitFormula Model.FindModfr Spec.Numbers Spec.IndexSpec Spec.GLMMSpec Spec.SplitSpec Spec.FramesSpec Spec.SubexprSpec Spec.FlattenSpec.
Import ListNotations.
Local Open Scope R_scope.
Notation length := List.length.

(** A sparse matrix with q rows has these columns. *)
Definition same_matrix (q : nat) (cols : list (list R)) (m : csc R) : Prop :=
  cs_rows m = q /\ length (cs_cols m) = length cols /\
  (forall c e, In c (cs_cols m) -> In e c -> (fst e < q)%nat) /\
  forall r c, (r < q)%nat -> (c < length cols)%nat -> SplitSpec.entry m r c = nth r (nth c cols []) 0.
Definition makes_sparse (sparse : nat -> list (list R) -> csc R) : Prop :=
  forall q cols, List.Forall (fun c => length c = q) cols -> same_matrix q cols (sparse q cols).

(** The frame of a subformula has a row for every value of its response. *)
Definition makes_frames (parse_subformula : rexpr -> variables R -> outcome (modfr Rnum)) : Prop :=
  forall s rhs vars m a, parse_subformula (Call [Name "~"; Name s; rhs]) vars = Ok m -> fetch R vars s = Ok a -> proper (length (a_elems R a)) m.

(** What belongs to a subformula: its variable, the expression with that variable in a
    Sub() term, the names and numbers of levels of the indices, the data, and its frame. *)
Record part := mkPart { pa_var : string; pa_expr : rexpr; pa_indices : list (string * Z); pa_data : data_list; pa_frame : modfr Rnum }.
Definition pa_dims (p : part) : list Z := map snd (pa_indices p).

(** The data after the indices have been found: as the search left them, that is, the same
    but for the factors it has made. *)
Definition with_columns (data : data_list) (d : rdata) (data' : data_list) : Prop :=
  columns data' = d /\ Forall2 (fun x y => snd y = snd x \/ exists c l, snd y = VFac c l) data data'.

Record part_of (parse_subformula : rexpr -> variables R -> outcome (modfr Rnum)) (data : data_list) (subexprs : list rexpr) (subform : rexpr) (p : part) : Prop := {
  po_var : find_subvar subform = Ok (pa_var p);
  po_expr : In (pa_expr p) subexprs;
  po_occurs : occurs (pa_var p) (pa_expr p) = true;
  po_indices : exists d idx, find_indices_subform (pa_var p) subform (pa_expr p) (columns data) = Ok (d, idx) /\
    pa_indices p = map (fun ni => (fst ni, index_length (snd ni))) idx /\ with_columns data d (pa_data p);
  po_frame : exists flat, flatten_formula (length (pa_indices p)) subform = Ok flat /\
    parse_subformula flat (data_subform R IZR 0 (pa_indices p) (pa_var p) (covariates (pa_data p))) = Ok (pa_frame p)
}.

(** The linear predictor of the subformula, in all its rows. *)
Definition predictors (p : part) (beta theta u : list R) : list R :=
  map (predictor (pa_frame p) beta theta u) (seq 0 (length (grid (pa_dims p)))).

(** The variable is used as it should be (see C41). *)
Record usable (other : string -> list (list R) -> outcome (list R)) (p : part) : Prop := {
  us_clash : forall flat, extract_to_flatten (pa_var p) (pa_expr p) = Ok flat -> no_clash (pa_expr p) flat;
  us_function : all_calls (no_function (pa_var p)) (pa_expr p);
  us_subscripts : all_calls (subscripts other (environment (pa_data p)) (pa_var p) (pa_dims p)) (pa_expr p);
  us_multipliers : forall beta theta u,
    all_calls (multipliers other (environment (pa_data p)) (pa_var p) (match mo_re _ (pa_frame p) with Some _ => true | None => false end) (pa_dims p)
      (predictors p beta theta u)) (pa_expr p)
}.

(** Parameters and random effects: of one frame, and of several together. *)
Definition pars := (list R * list R * list R)%type.
Definition fit (m : modfr Rnum) (p : pars) : Prop :=
  length (fst (fst p)) = mo_p _ m /\ length (snd (fst p)) = ntheta m /\ length (snd p) = nrandom m.
Definition all_beta (ps : list pars) : list R := concat (map (fun p => fst (fst p)) ps).
Definition all_theta (ps : list pars) : list R := concat (map (fun p => snd (fst p)) ps).
Definition all_u (ps : list pars) : list R := concat (map snd ps).

(** The value of the Sub() term for the observations, when the variable stands for the
    linear predictor of its subformula. *)
Definition sub_term (other : string -> list (list R) -> outcome (list R)) (p : part) (q : pars) : outcome (list R) :=
  SubexprSpec.meaning other (environment (pa_data p)) (pa_var p) (pa_dims p) (predictors p (fst (fst q)) (snd (fst q)) (snd q)) (pa_expr p).

(** The expression [x] has, when it is evaluated, the values g in n rows. *)
Definition to_int (x : R) : option Z := Some (Int_part x).
Definition has_values (fn : string -> list R -> R) (vars : variables R) (n : nat) (x : rexpr) (g : nat -> R) : Prop :=
  exists a, evaluate R (fun c => c) to_int fn vars x = Ok a /\ forall r, (r < n)%nat -> in_row (a_elems R a) r = Some (g r).

(** The value of an expression of the subformula at the indices t. *)
Definition value_at (fn : string -> list R -> R) (V : string -> option (var R)) (t : list Z) (x : rexpr) : option R :=
  FlattenSpec.meaning R (fun c => c) to_int fn IZR V t x.
Definition number (o : option R) : R := match o with Some x => x | None => 0 end.

(** The entries of Zt; and Lambda(theta) u, the effects that the rows of Zt belong to. *)
Definition Zt_at (m : modfr Rnum) (j k : nat) : R := match mo_re _ m with Some r => SplitSpec.entry (rt_Zt _ r) j k | None => 0 end.
Definition effect (m : modfr Rnum) (theta u : list R) (j : nat) : R :=
  match mo_re _ m with Some r => sumR (length u) (fun i => Lam (whole (frame_of m r)) theta i j * nth i u 0) | None => 0 end.

(** The frame of a subformula with these covariates xs, and zs for the random effects: the
    columns have the values of the flat expressions. *)
Record frame_for (fn : string -> list R -> R) (indices : list (string * Z)) (s : string) (lhs : rexpr) (data : variables R) (xs zs : list rexpr) (m : modfr Rnum) : Prop := {
  ff_proper : proper (length (grid (map snd indices))) m;
  ff_p : mo_p _ m = length xs;
  ff_q : nrandom m = length zs;
  ff_X : forall c x x', nth_error xs c = Some x -> flatten_formula (length indices) (Call [Name "~"; lhs; x]) = Ok (Call [Name "~"; Name s; x']) ->
    has_values fn (data_subform R IZR 0 indices s data) (length (grid (map snd indices))) x' (fun r => at2 (mo_X _ m) r c);
  ff_Zt : forall j z z', nth_error zs j = Some z -> flatten_formula (length indices) (Call [Name "~"; lhs; z]) = Ok (Call [Name "~"; Name s; z']) ->
    has_values fn (data_subform R IZR 0 indices s data) (length (grid (map snd indices))) z' (fun r => Zt_at m j r)
}.
(** An expression that can be used in a subformula (see C72). *)
Definition suitable (fn : string -> list R -> R) (indices : list (string * Z)) (V : string -> option (var R)) (x : rexpr) : Prop :=
  ((2 <= length indices)%nat -> not_nested x = true) /\ ((length indices <= 1)%nat -> no_multiple x = true) /\
  forall t, In t (grid (map snd indices)) -> value_at fn V t x <> None.
