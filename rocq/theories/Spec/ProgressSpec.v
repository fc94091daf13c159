(** What should be shown while a model is fitted. *)
From Coq Require Import List ZArith Reals.
From Verif Require Import Model.Base Model.Fit Model.Environment Model.Progress Spec.FitSpec Spec.EnvironmentSpec.
Import ListNotations.
Local Open Scope R_scope.

(** The points an algorithm asks for, if the answers are those of f. *)
Fixpoint asked {B C} (f : list R -> B) (t : asks B C) : list (list R) :=
  match t with
  | Done _ => []
  | Ask x k => x :: asked f (k (f x))
  end.

(** The loglikelihood as it is used at parameters: -Inf (None) where it stops with an error,
    and outside of the box 50 less than where the optimization starts. *)
Definition inside (p_theta : nat) (param : list R) : bool := forallb (fun x => if Rle_dec (Rabs x) 5 then true else false) (firstn p_theta param).
Definition used_loglikelihood (lfun : list R -> outcome R) (p_theta : nat) (l0 : R) (param : list R) : option R :=
  if inside p_theta param then match lfun param with Ok l => Some l | _ => None end else Some (l0 - 50).
Definition deviance (l : option R) : dev := match l with Some x => Fin (-2 * x) | None => Inf end.

(** Parameters from the difference to the start. *)
Definition shifted (start x : list R) : list R := map (fun ab => fst ab + snd ab) (combine x start).

(** The points at which the loglikelihood is needed by optim. *)
Definition points (optim : list R -> asks dev (list R * list (list R))) (lfun : list R -> outcome R) (p_theta : nat) (start : list R) (l0 : R) : list (list R) :=
  map (shifted start) (asked (fun x => deviance (used_loglikelihood lfun p_theta l0 (shifted start x))) (optim (repeat 0 (length start)))).

(** A value or an error of R. *)
Definition defined {A} (o : outcome A) : Prop := match o with Ok _ | Throw _ => True | _ => False end.
(** All points that are asked for have a given length, whatever the answers. *)
Fixpoint asks_length {B C} (n : nat) (t : asks B C) : Prop :=
  match t with
  | Done _ => True
  | Ask x k => length x = n /\ forall b, asks_length n (k b)
  end.

(** What is written before and after the output of the evaluations. *)
Definition opening (t0 : R) : list printed := (if Rlt_dec (1 / 10) t0 then [Takes t0] else []) ++ [Fitting].
Definition closing (optim : list R -> asks dev (list R * list (list R))) (lfun : list R -> outcome R) (p_theta : nat) (start : list R) (l0 : R) : list printed :=
  match answers (fun x => Ok (deviance (used_loglikelihood lfun p_theta l0 (shifted start x)))) (optim (repeat 0 (length start))) with
  | Ok _ => [Finished]
  | _ => []
  end.
