(** R/glmmFit.R:58-164: the tables printed of a fit and of its summary.  Headings, the
    number of observations and the rounding to four digits are left out. *)
From Coq Require Import String List Bool Arith Reals.
From Verif Require Import Model.Base Model.Fit.
Import ListNotations.
Local Open Scope R_scope.
Local Open Scope string_scope.
Notation length := List.length.

(** data.frame("Groups" = , "Name" = , "Estimate" = ), R/glmmFit.R:77-79 and 139-142: the
    columns are recycled to the longest one, whose length must be a multiple of all lengths.
    (Three empty columns, which R accepts, are an error here; there are random effects.) *)
Definition recycles (n k : nat) : bool := (1 <=? k)%nat && (n mod k =? 0)%nat.
Definition random_table {A} (na : A) (groups names : list string) (values : list A) : outcome (list (string * string * A)) :=
  let n := Nat.max (length groups) (Nat.max (length names) (length values)) in
  if recycles n (length groups) && recycles n (length names) && recycles n (length values) then
    Ok (map (fun i => (nth (i mod length groups) groups "", nth (i mod length names) names "", nth (i mod length values) values na)) (seq 0 n))
  else Throw RuntimeError.

(** The line with the numbers of levels, R/glmmFit.R:83-90 and 144-151; nlevels_each has one
    number for each element of flist.  None is NA. *)
Definition group_line (groups : list string) (nlevels_each : list nat) : list (option string * option nat) :=
  map (fun i => (nth_error groups (i - 1), nth_error nlevels_each (i - 1))) (colon 1 (length groups)).

(** What is printed. *)
Record printed A B := mkPrinted {
  pr_random : list (string * string * A);
  pr_groups : list (option string * option nat);
  pr_fixed : list (option string * B)
}.
Arguments mkPrinted {A B}.
Arguments pr_random {A B}.
Arguments pr_groups {A B}.
Arguments pr_fixed {A B}.

(** print.glmmFit, R/glmmFit.R:58-94; [groups] is names(cnms). *)
Definition print_fit (f : fit) (groups : list string) (nlevels_each : list nat) : outcome (printed (option R) (option R)) :=
  fixed <- coef_fixed f ;;
  random <- random_table None groups (ft_names_theta f) (select (ft_estim f) (colon 1 (ft_ptheta f))) ;;
  Ok (mkPrinted random (group_line groups nlevels_each) fixed).

(** rownames(fixed_mat) <- names_beta, line 161: as many names as rows, or none. *)
Definition set_rownames {A} (rows : list A) (names : list string) : outcome (list (option string * A)) :=
  match names with
  | [] => Ok (map (fun r => (None, r)) rows)
  | _ => if (length names =? length rows)%nat then Ok (combine (map Some names) rows) else Throw RuntimeError
  end.

(** print.summaryGlmmFit, R/glmmFit.R:119-164, of summary.glmmFit(f), lines 104-110: with
    standard errors, and z and p-values for the fixed effects, all missing (None) if Sigma is a
    matrix of NAs. *)
Definition print_summary (upper : R -> R) (f : fit) (groups : list string) (nlevels_each : list nat) :
    outcome (printed (option R * option R) (option R * option R * option R * option R)) :=
  match ft_Sigma f with
  | None =>
      let which_random := colon 1 (ft_ptheta f) in
      let which_fixed := colon (ft_ptheta f + 1) (ft_pbeta f + ft_ptheta f) in
      random <- random_table (None, None) groups (ft_names_theta f) (map (fun x => (x, None)) (select (ft_estim f) which_random)) ;;
      fixed <- set_rownames (map (fun x => (x, None, None, None)) (select (ft_estim f) which_fixed)) (ft_names_beta f) ;;
      Ok (mkPrinted random (group_line groups nlevels_each) fixed)
  | Some Sigma =>
      let s := summary upper (ft_estim f) Sigma in
      let se := map (fun r => fst (fst r)) s in
      let z := map (fun r => snd (fst r)) s in
      let p_value := map snd s in
      let p := (ft_pbeta f + ft_ptheta f)%nat in
      let which_random := colon 1 (ft_ptheta f) in
      let which_fixed := colon (ft_ptheta f + 1) p in
      random <- random_table (None, None) groups (ft_names_theta f) (combine (select (ft_estim f) which_random) (select se which_random)) ;;
      fixed <- set_rownames (combine (combine (combine (select (ft_estim f) which_fixed) (select se which_fixed)) (select z which_fixed)) (select p_value which_fixed)) (ft_names_beta f) ;;
      Ok (mkPrinted random (group_line groups nlevels_each) fixed)
  end.
