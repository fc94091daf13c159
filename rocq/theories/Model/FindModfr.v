(** R/subformula.R, lines 101-190: the model frame of a formula with subformulas. *)
From Coq Require Import String List Reals Bool Arith ZArith.
From Verif Require Import Model.Base Model.Family Model.GLMM Model.SplitFrame Model.Frames Model.Indexing Model.Subexpr Model.FindIndices Model.Flatten
  Model.SplitFormula Spec.Numbers.
Import ListNotations.
Local Open Scope string_scope.
Local Open Scope R_scope.
Notation length := List.length.

(** A variable of the data: a factor, with codes from 1 (None for NA) and levels; numbers,
    with dimensions if it is an array; or strings. *)
Inductive variable := VFac (codes : list (option Z)) (levels : list string) | VNum (values : list R) (dims : list Z) | VChr (values : list string).
Definition data_list := list (string * variable).

(** What the functions of R/indexing.R look at; numbers that are indices are integers. *)
Definition column_of (x : variable) : column :=
  match x with VFac c l => Fac c l | VNum v d => Num (map Int_part v) d | VChr v => Chr v end.
Definition columns (data : data_list) : rdata := map (fun nx => (fst nx, column_of (snd nx))) data.
(** The data with the factors that find_indices_subform put into it, R/indexing.R:85-88. *)
Definition updated (data : data_list) (d : rdata) : data_list :=
  map (fun p => match snd (snd p) with Fac c l => (fst (fst p), VFac c l) | _ => fst p end) (combine data d).

(** The variables as they are used in the expression of a Sub() term, as.list(data) in
    R/subformula.R:151, and in a subformula, line 135.  Strings cannot be used in them here;
    in subformulas a factor stands for its codes, which are its subscripts. *)
Definition code_of (c : option Z) : Z := match c with Some z => z | None => 0%Z end.
Definition environment (data : data_list) : env :=
  flat_map (fun nx => match snd nx with
                      | VFac c _ => [(fst nx, Codes (map code_of c))]
                      | VNum v _ => [(fst nx, Vec v)]
                      | VChr _ => []
                      end) data.
Definition covariates (data : data_list) : variables R :=
  flat_map (fun nx => match snd nx with
                      | VFac c _ => [(fst nx, mkArr R (map (fun z => IZR (code_of z)) c) [])]
                      | VNum v d => [(fst nx, mkArr R v d)]
                      | VChr _ => []
                      end) data.

(** The matrices of a frame that the functions of R/model_frames.R:100-177 compute with:
    X, and Zt, by columns; and a frame with other matrices in the place of these.  *)
Definition dense (m : csc R) : list (list R) :=
  map (fun c => map (fun r => fold_right Rplus 0 (map snd (filter (fun e => Nat.eqb (fst e) r) c))) (seq 0 (cs_rows m))) (cs_cols m).
Definition mframe_of (m : modfr Rnum) : mframe :=
  match mo_re _ m with
  | Some r => mkMframe (mo_p _ m) (mo_X _ m) (cs_rows (rt_Zt _ r)) (Some (dense (rt_Zt _ r)))
  | None => mkMframe (mo_p _ m) (mo_X _ m) 0 None
  end.

Section FindModfr.
(** Functions in Sub() terms other than those known; the frames of formulas, and of
    subformulas in the data given to them, both made by lme4 and stats (R/model_frames.R:3-88);
    and the sparse matrix with given columns, which the package Matrix makes. *)
Variable other : string -> list (list R) -> outcome (list R).
Variable parse_formula : rexpr -> outcome (modfr Rnum).
Variable parse_subformula : rexpr -> variables R -> outcome (modfr Rnum).
Variable sparse : nat -> list (list R) -> csc R.

Definition with_matrices (m : modfr Rnum) (f : mframe) : modfr Rnum :=
  mkModfr Rnum (mf_X f) (mf_p f)
    (match mo_re _ m, mf_Zt f with
     | Some r, Some Zt => Some (mkRe Rnum (sparse (mf_q f) Zt) (rt_theta _ r) (rt_Lind _ r) (rt_lower _ r) (rt_Lambdat _ r))
     | _, _ => None
     end)
    (mo_response _ m) (mo_weights _ m).

(** parse_sub, R/subformula.R:118-155.  [sub] has the expression, or is NULL, for
    which find_indices_subform compares two dimensions that are NULL, and stops.  A result that
    is not a frame is an error when it is put together with others. *)
Definition parse_sub_full (data : data_list) (subform : rexpr) (sub : option rexpr) : outcome (modfr Rnum) :=
  match sub with
  | None => Throw RuntimeError
  | Some subexpr =>
      subvar <- find_subvar subform ;;
      tot <- find_indices_subform subvar subform subexpr (columns data) ;;
      let data' := updated data (fst tot) in
      let indices := map (fun ni => (fst ni, index_length (snd ni))) (snd tot) in
      subform_flat <- flatten_formula (length indices) subform ;;
      base <- parse_subformula subform_flat (data_subform R IZR 0 indices subvar (covariates data')) ;;
      v <- parse_sub other subvar (mframe_of base) (map snd indices) (environment data') subexpr ;;
      match v with Frame f => Ok (with_matrices base f) | _ => Throw RuntimeError end
  end.

(** find_modfr_glmm, R/subformula.R:161-190; subforms is empty for NULL. *)
Definition find_modfr_glmm (formula : rexpr) (subforms : list rexpr) (data : data_list) : outcome (modfr Rnum) :=
  split <- split_formula formula ;;
  modfr_no_sub <- parse_formula (fst split) ;;
  match snd split with
  | [] => Ok modfr_no_sub
  | subexprs =>
      subvars <- mapM find_subvar subforms ;;
      subs <- match_subform_subexpr subvars subexprs ;;
      modfr_list <- mapM (fun fs => parse_sub_full data (fst fs) (snd fs)) (combine subforms subs) ;;
      attach_subframes Rnum modfr_no_sub modfr_list
  end.
End FindModfr.
