(** C79: what is printed of a fit. *)
From Coq Require Import String List Arith Reals.
From Verif Require Import Model.Base Model.Fit Model.Report Spec.ReportSpec Proofs.ReportMain.
Import ListNotations.
Local Open Scope R_scope.
Local Open Scope string_scope.
Notation length := List.length.

(** With random intercepts or single slopes, different groups and fixed effects every
    estimate is printed once, with its labels, and every group with its number of levels. *)
Theorem C79_printed : forall f terms nlev, List.Forall scalar terms -> terms <> [] -> NoDup (groups_of terms) ->
  ft_ptheta f = length terms -> ft_names_theta f = components_of terms ->
  (1 <= ft_pbeta f)%nat -> length (ft_estim f) = (ft_ptheta f + ft_pbeta f)%nat -> length (ft_names_beta f) = ft_pbeta f ->
  exists pr, print_fit f (groups_of terms) (map nlev (first_seen (groups_of terms))) = Ok pr /\
    labels (pr_random pr) = parameters terms /\ map snd (pr_random pr) = map Some (firstn (ft_ptheta f) (ft_estim f)) /\
    pr_groups pr = map (fun t => (Some (fst t), Some (nlev (fst t)))) terms /\
    pr_fixed pr = combine (map Some (ft_names_beta f)) (map Some (skipn (ft_ptheta f) (ft_estim f))).
Proof. exact C79_printed_main. Qed.
Print Assumptions C79_printed.

(** The same for the summary, with the standard errors, and z and p-values of the fixed effects. *)
Theorem C79_summary : forall f terms nlev, List.Forall scalar terms -> terms <> [] -> NoDup (groups_of terms) ->
  ft_ptheta f = length terms -> ft_names_theta f = components_of terms ->
  (1 <= ft_pbeta f)%nat -> length (ft_estim f) = (ft_ptheta f + ft_pbeta f)%nat -> length (ft_names_beta f) = ft_pbeta f ->
  forall upper Sigma, ft_Sigma f = Some Sigma ->
  let se i := sqrt (nth i (nth i Sigma []) 0) in
  let z i := Rabs (nth i (ft_estim f) 0 / se i) in
  exists ps, print_summary upper f (groups_of terms) (map nlev (first_seen (groups_of terms))) = Ok ps /\
    labels (pr_random ps) = parameters terms /\
    map snd (pr_random ps) = map (fun i => (Some (nth i (ft_estim f) 0), Some (se i))) (seq 0 (ft_ptheta f)) /\
    pr_groups ps = map (fun t => (Some (fst t), Some (nlev (fst t)))) terms /\
    pr_fixed ps = combine (map Some (ft_names_beta f))
      (map (fun i => (Some (nth i (ft_estim f) 0), Some (se i), Some (z i), Some (2 * upper (z i)))) (seq (ft_ptheta f) (ft_pbeta f))).
Proof. exact C79_summary_main. Qed.
Print Assumptions C79_summary.

(** If Sigma is a matrix of NAs, because a parameter is too large, the standard errors, z and
    p-values are missing and everything else is the same. *)
Theorem C79_infinite : forall f terms nlev, List.Forall scalar terms -> terms <> [] -> NoDup (groups_of terms) ->
  ft_ptheta f = length terms -> ft_names_theta f = components_of terms ->
  (1 <= ft_pbeta f)%nat -> length (ft_estim f) = (ft_ptheta f + ft_pbeta f)%nat -> length (ft_names_beta f) = ft_pbeta f ->
  forall upper, ft_Sigma f = None ->
  exists ps, print_summary upper f (groups_of terms) (map nlev (first_seen (groups_of terms))) = Ok ps /\
    labels (pr_random ps) = parameters terms /\
    map snd (pr_random ps) = map (fun x => (Some x, None)) (firstn (ft_ptheta f) (ft_estim f)) /\
    pr_groups ps = map (fun t => (Some (fst t), Some (nlev (fst t)))) terms /\
    pr_fixed ps = combine (map Some (ft_names_beta f)) (map (fun x => (Some x, None, None, None)) (skipn (ft_ptheta f) (ft_estim f))).
Proof. exact C79_infinite_main. Qed.
Print Assumptions C79_infinite.

(** A term with c > 1 components has c (c + 1) / 2 parameters.  If c is even a fit cannot be
    printed; if it is odd, the parameter of the second component is printed as that of the first.
    In coef it has no name. *)
Theorem C79_slopes_refuted : forall f g names levels, (2 <= length names)%nat -> ft_names_theta f = names -> ft_ptheta f = length (parameters [(g, names)]) ->
  (1 <= ft_pbeta f)%nat -> length (ft_estim f) = (ft_ptheta f + ft_pbeta f)%nat -> length (ft_names_beta f) = ft_pbeta f ->
  let c := length names in
  nth_error (parameters [(g, names)]) c = Some (g, nth 1 names "", nth 1 names "") /\
  (Nat.odd c = false -> print_fit f [g] levels = Throw RuntimeError) /\
  (Nat.odd c = true -> exists pr, print_fit f [g] levels = Ok pr /\ nth_error (pr_random pr) c = Some (g, nth 0 names "", Some (nth c (ft_estim f) 0))) /\
  exists l, coef_random f = Ok l /\ nth_error l c = Some (None, Some (nth c (ft_estim f) 0)).
Proof. exact C79_slopes_main. Qed.
Print Assumptions C79_slopes_refuted.

(** With two terms of one group and one of another, the second line has the number of levels
    of the wrong group and the third one none. *)
Theorem C79_groups_refuted : forall g h nlev, g <> h -> let groups := [g; g; h] in
  group_line groups (map nlev (first_seen groups)) = [(Some g, Some (nlev g)); (Some g, Some (nlev h)); (Some h, None)].
Proof. exact C79_groups_main. Qed.
Print Assumptions C79_groups_refuted.

(** Without fixed effects a missing value and the last parameter of the random effects are
    printed as fixed effects. *)
Theorem C79_no_fixed_refuted : forall f groups levels, (1 <= ft_ptheta f)%nat -> ft_pbeta f = 0%nat -> length (ft_estim f) = ft_ptheta f -> length groups = ft_ptheta f ->
  length (ft_names_theta f) = ft_ptheta f -> ft_names_beta f = [] ->
  exists pr, print_fit f groups levels = Ok pr /\ map snd (pr_fixed pr) = [None; Some (nth (ft_ptheta f - 1) (ft_estim f) 0)].
Proof. exact C79_no_fixed_main. Qed.
Print Assumptions C79_no_fixed_refuted.

(** y ~ x + (1 | g) + (0 + x | h), and the term (1 + x + z | g). *)
Example C79_case :
  (let terms := [("g", ["(Intercept)"]); ("h", ["x"])] in let f := mkFit [2; 3; -1; 4] None 2 2 (components_of terms) ["(Intercept)"; "x"] in
   List.Forall scalar terms /\ NoDup (groups_of terms) /\ parameters terms = [("g", "(Intercept)", "(Intercept)"); ("h", "x", "x")] /\
   print_fit f (groups_of terms) [5; 7]%nat =
     Ok (mkPrinted [("g", "(Intercept)", Some 2); ("h", "x", Some 3)] [(Some "g", Some 5%nat); (Some "h", Some 7%nat)] [(Some "(Intercept)", Some (-1)); (Some "x", Some 4)])) /\
  parameters [("g", ["(Intercept)"; "x"; "z"])] =
    [("g", "(Intercept)", "(Intercept)"); ("g", "x", "(Intercept)"); ("g", "z", "(Intercept)"); ("g", "x", "x"); ("g", "z", "x"); ("g", "z", "z")].
Proof.
  split; [|reflexivity]. cbv zeta. split; [repeat constructor|]. split; [|split; reflexivity].
  repeat constructor; cbn [In groups_of map fst]; intuition discriminate.
Qed.
(** The summary of a fit with a parameter of 5. *)
Example C79_infinite_case :
  print_summary (fun z => z) (mkFit [5; -1; 4] None 1 2 ["(Intercept)"] ["(Intercept)"; "x"]) ["g"] [7]%nat =
  Ok (mkPrinted [("g", "(Intercept)", (Some 5, None))] [(Some "g", Some 7%nat)]
       [(Some "(Intercept)", (Some (-1), None, None, None)); (Some "x", (Some 4, None, None, None))]).
Proof. reflexivity. Qed.
