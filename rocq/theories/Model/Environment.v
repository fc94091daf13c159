(** R/fit.R and R/loglikelihood.R with the environment of lme4's deviance function, which
    every evaluation changes: compute_normal_approx reads what the last one has left there,
    and updateGlmerDevfun changes it for all the functions made from it.  Model/Glmm.v has
    the same functions without the environment.  Numbers are exact. *)
From Coq Require Import String List ZArith Arith Reals Bool.
From Verif Require Import Model.Base Model.Family Model.GLMM Model.SplitFrame Model.Vectors Model.Frames Model.Indexing Model.Subexpr Model.FindIndices Model.Flatten
  Model.SplitFormula Model.FindModfr Model.MultiNormal Model.IS Model.HOL Model.LfunSR Model.Control Model.Fit Model.NormalApprox Model.Glmm Spec.Numbers.
Import ListNotations.
Local Open Scope string_scope.
Local Open Scope R_scope.
Notation length := List.length.

(** What is used of lme4 and Matrix. *)
Record lme4 := mkLme4 {
  env : Type;
  (** find_devfun_laplace_1, R/loglikelihood.R:13-18: mkGlmerDevfun and updateGlmerDevfun
      with nAGQ = 1. *)
  v_make : modfr Rnum -> retrms Rnum -> outcome env;
  (** updateGlmerDevfun with nAGQ, line 34: the environment of the function is changed. *)
  v_update : retrms Rnum -> R -> env -> outcome env;
  (** A call of the deviance function.  What an error leaves behind is part of the
      environment, too. *)
  v_call : env -> list R -> outcome R * env;
  (** get("pp", environment(devfun_lme4)), lines 83-88: PR$delu, and the size and the two
      factors of expand(PR$L()). *)
  v_delu : env -> rvec;
  v_n : env -> nat;
  v_L : env -> rmat;
  v_P : env -> rmat
}.

(** Functions of numerical packages that ask for values of a function one after the other,
    each point depending on the answers so far; an error of the function ends them. *)
Inductive asks (B C : Type) : Type :=
| Done (c : outcome C)
| Ask (x : list R) (k : B -> asks B C).
Arguments Done {B C} _.
Arguments Ask {B C} _ _.

Section Environment.
Context (V : lme4) (X : externals).

(** Computations that use the environment. *)
Definition stateful (A : Type) : Type := env V -> outcome A * env V.
Definition ret {A} (a : A) : stateful A := fun e => (Ok a, e).
Definition lift {A} (o : outcome A) : stateful A := fun e => (o, e).
Definition andthen {A B} (c : stateful A) (f : A -> stateful B) : stateful B := fun e =>
  let (o, e') := c e in
  match o with Ok a => f a e' | Throw x => (Throw x, e') | UB => (UB, e') | NoFuel => (NoFuel, e') end.
Fixpoint ask_env {B C} (t : asks B C) (f : list R -> stateful B) : stateful C :=
  match t with
  | Done c => lift c
  | Ask x k => andthen (f x) (fun b => ask_env (k b) f)
  end.

(** devfun_laplace_1(x) and devfun_AGQ(x). *)
Definition devfun (x : list R) : stateful R := fun e => v_call V e x.

(** compute_normal_approx, R/loglikelihood.R:80-90: first the deviance, line 82, then what
    is in the environment. *)
Definition compute_normal_approx_env (pars : list R) : stateful normal_approx :=
  andthen (devfun pars) (fun d e => (Ok (compute_normal_approx (mkAfter d (v_delu V e) (v_n V e) (v_L V e) (v_P V e))), e)).

Section Method.
Context (family link : string) (m : modfr Rnum) (r : retrms Rnum).

(** find_epsilon_1, R/hol.R:7-34. *)
Definition find_epsilon_1_env (pars : list R) : stateful R :=
  andthen (compute_normal_approx_env pars) (fun a => lift (find_epsilon_1 (x_solve2 X) family link pars m r (na_mean a) (na_precision a))).

(** find_lfun_Laplace, R/laplace.R:11-25. *)
Definition find_lfun_Laplace_env (order : R) : outcome (list R -> stateful R) :=
  if Reqb order 1 then Ok (fun x => andthen (devfun x) (fun d => ret (- d / 2)))
  else
    _ <- check_if_order_implemented family link order ;;
    if Reqb order 2 then
      Ok (fun x => andthen (find_epsilon_1_env x) (fun epsilon_1 => andthen (devfun x) (fun d => ret (- d / 2 + epsilon_1))))
    else Throw RuntimeError.

(** find_lfun_AGQ, R/loglikelihood.R:33-36. *)
Definition find_lfun_AGQ_env (nAGQ : R) : stateful (list R -> stateful R) := fun e =>
  match v_update V r nAGQ e with
  | Ok e' => (Ok (fun x => andthen (devfun x) (fun d => ret (- d / 2))), e')
  | Throw x => (Throw x, e)
  | UB => (UB, e)
  | NoFuel => (NoFuel, e)
  end.

(** find_lfun_IS, R/IS.R:75-88. *)
Definition find_lfun_IS_env (nIS : R) : outcome (list R -> stateful R) :=
  k <- natural nIS ;;
  let z_poss := x_rnorm X (cs_rows (rt_Zt _ r)) k in
  Ok (fun x => andthen (compute_normal_approx_env x) (fun a =>
                 lift (lfun_IS (x_chol X) (x_solve X) (x_determinant X) z_poss k (x_family X family link) m r x (na_mean a) (na_precision a)))).

(** find_lfun_SR, R/loglikelihood.R:38-78: the length of the parameter is tested first. *)
Definition find_lfun_SR_env (nSL nAGQ : R) : outcome (list R -> stateful R) :=
  k <- natural nSL ;;
  s <- LfunSR.find_lfun_SR (x_inverse X) (x_det X) (x_isnormal X) (x_T X) (x_scope X) (x_eval X) (x_deriv X) (x_deriv2 X) (x_integral X nAGQ k)
         (split_frame m r) (length (rt_theta _ r)) family link k ;;
  Ok (fun x =>
        if negb (Nat.eqb (length x) (sr_n_fixed _ s + sr_n_random _ s)) then lift (Throw RuntimeError)
        else andthen (compute_normal_approx_env x) (fun a =>
               lift (lfun_SR (x_inverse X) (x_det X) (x_isnormal X) (x_T X) (x_scope X) (x_eval X) (x_deriv X) (x_deriv2 X) (x_integral X nAGQ k)
                       (fun _ => (l_laplace a, na_mean a, fun i j => nth (Z.to_nat j) (nth (Z.to_nat i) (na_precision a) []) 0)) s x))).

(** find_lfun_glmm_internal, R/loglikelihood.R:20-31. *)
Definition find_lfun_glmm_internal_env (method : string) (con : named) : stateful (list R -> stateful R) :=
  if String.eqb method "Laplace" then lift (order <- needed (lookup "order" con) ;; find_lfun_Laplace_env order)
  else if String.eqb method "AGQ" then andthen (lift (needed (lookup "nAGQ" con))) find_lfun_AGQ_env
  else if String.eqb method "SR" then lift (nSL <- needed (lookup "nSL" con) ;; nAGQ <- needed (lookup "nAGQ" con) ;; find_lfun_SR_env nSL nAGQ)
  else if String.eqb method "IS" then lift (nIS <- needed (lookup "nIS" con) ;; find_lfun_IS_env nIS)
  else lift (Throw RuntimeError).

(** find_laplace_divergence, R/hol.R:36-64, as it is called in R/fit.R:66; [grad] is
    numDeriv::grad. *)
Definition laplace_divergence_env (grad : list R -> asks R rvec) (opt : list R * list (list R)) : stateful R :=
  andthen (ask_env (grad (fst opt)) find_epsilon_1_env) (fun delta_1 => ret (find_laplace_divergence delta_1 (snd opt))).
End Method.

(** devfun_ext and devfun_std, R/optimization.R:20-48. *)
Definition devfun_ext_env (lfun : list R -> stateful R) (p_theta : nat) (param : list R) (stop_on_error : bool) (big : dev) : stateful dev :=
  andthen (lift (outside p_theta param)) (fun out : bool =>
    if out then ret big
    else fun e =>
      let (o, e') := lfun param e in
      match o with
      | Ok l => (Ok (Fin (-2 * l)), e')
      | Throw x => (if stop_on_error then Throw x else Ok Inf, e')
      | UB => (UB, e')
      | NoFuel => (NoFuel, e')
      end).
Definition devfun_std_env (lfun : list R -> stateful R) (p_theta : nat) (mu param_std : list R) (stop_on_error : bool) (big : dev) : stateful dev :=
  devfun_ext_env lfun p_theta (recycled_sum param_std mu) stop_on_error big.

(** optimize_glmm, R/optimization.R:11-92; the second evaluation at the start, line 62, is
    the one whose time is taken. *)
Definition optimize_glmm_env (optim : list R -> asks dev (list R * list (list R))) (lfun : list R -> stateful R) (p_beta p_theta : nat) (prev : option (list R))
  : stateful (list R * list (list R)) :=
  let mu := starting_values p_theta p_beta prev in
  let par0 := repeat 0 (p_theta + p_beta)%nat in
  andthen (devfun_std_env lfun p_theta mu par0 true Inf) (fun d0 =>
  andthen (devfun_std_env lfun p_theta mu par0 false Inf) (fun _ =>
  andthen (ask_env (optim par0) (fun x => devfun_std_env lfun p_theta mu x false (dev_plus d0 100))) (fun out_std =>
  andthen (lift (x_inv X (snd out_std))) (fun inv =>
  ret (recycled_sum (fst out_std) mu, mscale 2 inv))))).

Inductive glmm_result_env :=
| GlmmFitEnv (f : fit) (lfun : list R -> stateful R) (m : modfr Rnum) (method : string) (con : named) (divergence : option R) (unreliable : bool)
| OptListEnv (opt : list R * list (list R)) (divergence : option R) (unreliable : bool).

(** glmm, R/fit.R:46-91: the result and the environment that its lfun goes on using. *)
Definition glmm_env (optim : list R -> asks dev (list R * list (list R))) (grad : list R -> asks R rvec)
    (formula : rexpr) (subforms : list rexpr) (data : data_list) (family link : string) (method : list string)
    (control : named) (weights : list R) (prev : option (list R)) : outcome (glmm_result_env * env V) :=
  _ <- check_weights weights ;;
  con' <- find_control_with_defaults control method ;;
  let con := fst con' in
  m <- find_modfr_glmm (x_other X) (parse_formula X family) (x_sub X) (x_sparse X) formula subforms data ;;
  match mo_re _ m, method with
  | Some r, [meth] =>
      e0 <- v_make V m r ;;
      let p_beta := mo_p _ m in
      let p_theta := length (rt_theta _ r) in
      let run :=
        andthen (find_lfun_glmm_internal_env family link m r meth con) (fun lfun =>
        andthen (optimize_glmm_env optim lfun p_beta p_theta prev) (fun opt =>
        andthen (lift (needed (lookup "check_Laplace" con))) (fun check_Laplace =>
        andthen (if Reqb check_Laplace 0 then ret (None, false)
                 else
                   andthen (laplace_divergence_env family link m r grad opt) (fun d =>
                   andthen (lift (needed (lookup "divergence_threshold" con))) (fun threshold =>
                   ret (Some d, exceeds d threshold)))) (fun du =>
        if forallb (fun b => match b with Zero => true | MinusInf => false end) (rt_lower _ r) then
          ret (GlmmFitEnv (make_fit (rt_lower _ r) p_theta p_beta (x_names_theta X m) (x_names_beta X m) opt) lfun m meth con (fst du) (snd du))
        else ret (OptListEnv opt (fst du) (snd du)))))) in
      let (o, e) := run e0 in
      res <- o ;; Ok (res, e)
  | _, _ => Throw RuntimeError
  end.

(** find_lfun_glmm, R/loglikelihood.R:5-11, for a frame with random effects. *)
Definition find_lfun_glmm_env (family link : string) (m : modfr Rnum) (method : list string) (control : named)
  : outcome ((list R -> stateful R) * env V) :=
  match mo_re _ m with
  | None => Throw RuntimeError
  | Some r =>
      e0 <- v_make V m r ;;
      con' <- find_control_with_defaults control method ;;
      match method with
      | [meth] => let (o, e) := find_lfun_glmm_internal_env family link m r meth (fst con') e0 in lfun <- o ;; Ok (lfun, e)
      | _ => Throw RuntimeError
      end
  end.
End Environment.
