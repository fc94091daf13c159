(** What is assumed of an environment that evaluations change, and when functions that use
    it are functions of their argument. *)
From Coq Require Import List Reals.
From Verif Require Import Model.Base Model.Family Model.Vectors Model.Frames Model.IS Model.NormalApprox Model.Fit Model.Control Model.Glmm Model.Environment Spec.Numbers.
Import ListNotations.

(** As long as nothing but evaluations change it, the environment computes the function dv
    whatever has been evaluated before, with or without an error, and afterwards it has the
    mode and the precision that belong to the argument.  [inv] says in which environments
    it does. *)
Definition computes (V : lme4) (inv : env V -> Prop) (dv : list R -> outcome (R * rvec * rmat)) : Prop :=
  forall e x, inv e -> inv (snd (v_call V e x)) /\
    match dv x with
    | Ok (d, mean, precision) => fst (v_call V e x) = Ok d /\ v_delu V (snd (v_call V e x)) = mean /\
        let e' := snd (v_call V e x) in
        na_precision (compute_normal_approx (mkAfter d (v_delu V e') (v_n V e') (v_L V e') (v_P V e'))) = precision
    | Throw RuntimeError => fst (v_call V e x) = Throw RuntimeError
    | _ => False
    end.
(** The same where only the value is used. *)
Definition computes_value (V : lme4) (inv : env V -> Prop) (g : list R -> outcome R) : Prop :=
  forall e x, inv e -> inv (snd (v_call V e x)) /\ fst (v_call V e x) = g x.

(** Errors are the same. *)
Definition same_error {A B} (o : outcome A) (o' : outcome B) : Prop :=
  match o, o' with Throw x, Throw y => x = y | UB, UB => True | NoFuel, NoFuel => True | _, _ => False end.

(** The functions of lme4, as in Model/Glmm.v, are those that new environments compute. *)
Definition implements (V : lme4) (X : externals) : Prop := forall m r,
  match v_make V m r with
  | Ok e =>
      (exists dv inv, x_devfun X m r = Ok dv /\ inv e /\ computes V inv dv) /\
      forall k, match v_update V r k e with
                | Ok e' => exists g inv, x_AGQ X m r k = Ok g /\ inv e' /\ computes_value V inv g
                | err => same_error err (x_AGQ X m r k)
                end
  | err => same_error err (x_devfun X m r)
  end.

(** The answers to the questions are those of a function. *)
Fixpoint answers {B C} (f : list R -> outcome B) (t : asks B C) : outcome C :=
  match t with
  | Done c => c
  | Ask x k => bind (f x) (fun b => answers f (k b))
  end.

(** The environment after evaluations at the points of a list. *)
Definition after {V A} (g : list R -> stateful V A) (xs : list (list R)) (e : env V) : env V := fold_left (fun e x => snd (g x e)) xs e.
(** The values of g are those of f, whatever it has been evaluated at before. *)
Definition function_of {V A} (g : list R -> stateful V A) (e : env V) (f : list R -> outcome A) : Prop :=
  forall xs x, fst (g x (after g xs e)) = f x.

(** A call of glmm that uses an environment has the result of one that does not: the same
    error, or a fit with the same components, whose lfun has the values of that of the other
    fit. *)
Definition agrees_fit {V} (o : outcome (glmm_result_env V * env V)) (o' : outcome glmm_result) : Prop :=
  match o with
  | Ok (GlmmFitEnv f lf m meth con div un, e) => exists lfun, o' = Ok (GlmmFit f lfun m meth con div un) /\ function_of lf e lfun
  | Ok (OptListEnv opt div un, _) => o' = Ok (OptList opt div un)
  | Throw x => o' = Throw x
  | UB => o' = UB
  | NoFuel => o' = NoFuel
  end.
