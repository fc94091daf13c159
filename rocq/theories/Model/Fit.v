(** Maximizing the loglikelihood and reporting the fit, R/optimization.R, R/fit.R:61-80
    and R/glmmFit.R.  Numbers are exact reals; NaN does not occur.  Progress output,
    timing and warnings are left out. *)
From Coq Require Import String List ZArith Arith Reals.
From Verif Require Import Model.Base Model.Family Model.GLMM Model.SplitFrame Model.Vectors Model.Frames Model.LfunSR Spec.Numbers.
Import ListNotations.
Local Open Scope R_scope.

(** A deviance: a number or Inf. *)
Inductive dev : Type := Fin (x : R) | Inf.
Definition dev_plus (d : dev) (x : R) : dev := match d with Fin y => Fin (y + x) | Inf => Inf end.

(** param_std + mu in R: the shorter vector is recycled. *)
Definition recycled_sum (x y : list R) : list R :=
  match x, y with
  | [], _ | _, [] => []
  | _, _ => map (fun i => nth (i mod List.length x) x 0 + nth (i mod List.length y) y 0)
                (seq 0 (Nat.max (List.length x) (List.length y)))
  end.

(** any(abs(param[1:p_theta]) > 5) as the condition of an if, R/optimization.R:21: with
    too few parameters, param[1:p_theta] has NAs, and the condition is NA, an error,
    unless another one is large. *)
Definition outside (p_theta : nat) (param : list R) : outcome bool :=
  if existsb (fun x => Rltb 5 (Rabs x)) (leading p_theta param) then Ok true
  else if (List.length param <? Nat.max 1 p_theta)%nat then Throw RuntimeError else Ok false.

(** devfun_ext, R/optimization.R:20-44; [lfun] throws where R stops with an error. *)
Definition devfun_ext (lfun : list R -> outcome R) (p_theta : nat) (param : list R) (stop_on_error : bool) (big : dev) : outcome dev :=
  out <- outside p_theta param ;;
  if out : bool then Ok big
  else match lfun param with
       | Ok l => Ok (Fin (-2 * l))
       | Throw e => if stop_on_error then Throw e else Ok Inf
       | UB => UB
       | NoFuel => NoFuel
       end.

(** devfun_std, R/optimization.R:45-48. *)
Definition devfun_std (lfun : list R -> outcome R) (p_theta : nat) (mu param_std : list R) (stop_on_error : bool) (big : dev) : outcome dev :=
  devfun_ext lfun p_theta (recycled_sum param_std mu) stop_on_error big.

(** Where the optimization starts, R/optimization.R:14-18; [prev] is prev_fit$estim. *)
Definition starting_values (p_theta p_beta : nat) (prev : option (list R)) : list R :=
  match prev with
  | Some estim => estim
  | None => repeat (1 / 2) p_theta ++ repeat 0 p_beta
  end.

Section Opt.
(** optim(par0, fn, hessian = TRUE, method = "BFGS"): the parameters and the Hessian it
    returns. *)
Context (optim : (list R -> outcome dev) -> list R -> outcome (list R * list (list R))).
(** solve(hess). *)
Context (solve : list (list R) -> outcome (list (list R))).

(** optimize_glmm, R/optimization.R:11-92. *)
Definition optimize_glmm (lfun : list R -> outcome R) (p_beta p_theta : nat) (prev : option (list R)) : outcome (list R * list (list R)) :=
  let p := (p_theta + p_beta)%nat in
  let mu := starting_values p_theta p_beta prev in
  let par0 := repeat 0 p in
  d0 <- devfun_std lfun p_theta mu par0 true Inf ;;
  out_std <- optim (fun x => devfun_std lfun p_theta mu x false (dev_plus d0 100)) par0 ;;
  let (estim_std, hess) := (out_std : list R * list (list R)) in
  inv <- solve hess ;;
  Ok (recycled_sum estim_std mu, mscale 2 inv).
End Opt.

(** A fit as made by glmm, R/fit.R:71-80: no Sigma (a matrix of NAs) if an estimate is
    above 4.9. *)
Record fit := mkFit {
  ft_estim : list R;
  ft_Sigma : option (list (list R));
  ft_ptheta : nat;
  ft_pbeta : nat;
  ft_names_theta : list string;
  ft_names_beta : list string
}.
Definition make_fit (lower : list bound) (p_theta p_beta : nat) (names_theta names_beta : list string)
    (opt : list R * list (list R)) : fit :=
  let estim := report_estim Rnum lower p_theta (fst opt) in
  mkFit estim (if existsb (fun x => Rltb (49 / 10) x) (firstn p_theta estim) then None else Some (snd opt))
    p_theta p_beta names_theta names_beta.

(** a:b and x[idx]: index 0 selects nothing, an index that is too large NA. *)
Definition colon (a b : nat) : list nat :=
  if (a <=? b)%nat then seq a (b - a + 1) else rev (seq b (a - b + 1)).
Definition select (x : list R) (idx : list nat) : list (option R) :=
  flat_map (fun i => match i with O => [] | S j => [nth_error x j] end) idx.

(** names(x) <- nms: an error if there are more names than elements, and NA (here no
    name) if there are fewer. *)
Definition set_names {A} (x : list A) (nms : list string) : outcome (list (option string * A)) :=
  if (List.length x <? List.length nms)%nat then Throw RuntimeError
  else Ok (combine (map Some nms ++ repeat None (List.length x - List.length nms)) x).

(** coef_random.glmmFit, coef_fixed.glmmFit and coef.glmmFit, R/glmmFit.R:166-199. *)
Definition coef_random (f : fit) : outcome (list (option string * option R)) :=
  set_names (select (ft_estim f) (colon 1 (ft_ptheta f))) (map (append "RE") (ft_names_theta f)).
Definition coef_fixed (f : fit) : outcome (list (option string * option R)) :=
  let p := (ft_pbeta f + ft_ptheta f)%nat in
  set_names (select (ft_estim f) (colon (ft_ptheta f + 1) p)) (ft_names_beta f).
Definition coef (f : fit) : outcome (list (option string * option R)) :=
  r <- coef_random f ;; x <- coef_fixed f ;; Ok (r ++ x).

(** vcov.glmmFit, R/glmmFit.R:209-215: the names of rows and columns must be as many as
    there are rows and columns (Sigma is square). *)
Definition vcov (f : fit) : outcome (list (option string) * option (list (list R))) :=
  c <- coef f ;;
  let par_names := map fst c in
  if (List.length par_names =? List.length (ft_estim f))%nat then Ok (par_names, ft_Sigma f) else Throw RuntimeError.

(** summary.glmmFit, R/glmmFit.R:104-110: standard errors, z and p-values; [upper] is
    pnorm(., lower.tail = FALSE). *)
Definition summary (upper : R -> R) (estim : list R) (Sigma : list (list R)) : list (R * R * R) :=
  map (fun i =>
    let se := sqrt (nth i (nth i Sigma []) 0) in
    let z := Rabs (nth i estim 0 / se) in
    (se, z, 2 * upper z)) (seq 0 (List.length estim)).
