(** What a call of glmm should give. *)
From Coq Require Import String List Reals ZArith Arith.
From Verif Require Import Model.Base Model.Family Model.GLMM Model.SplitFrame Model.Vectors Model.Frames Model.Subexpr Model.Control Model.Glmm
  Spec.Numbers Spec.GLMMSpec Spec.MatrixSpec Spec.FramesSpec Spec.ISSpec Spec.HOLSpec Spec.MirrorSpec Spec.ControlSpec.
Import ListNotations.
Local Open Scope string_scope.
Local Open Scope R_scope.
Notation length := List.length.

(** A weight that is an integer, up to the square root of the machine precision. *)
Definition near_integer (w : R) : Prop := exists z : Z, Rabs (w - IZR z) < / 2 ^ 26.

(** The parameters where a fit starts. *)
Definition start_of (p_theta p_beta : nat) (prev : option (list R)) : list R :=
  match prev with Some x => x | None => repeat (1 / 2) p_theta ++ repeat 0 p_beta end.

(** [x'] has the absolute values of the first parameters of [x]. *)
Definition absolute (p_theta : nat) (x x' : list R) : Prop :=
  length x' = length x /\ forall i, nth i x' 0 = if (i <? p_theta)%nat then Rabs (nth i x 0) else nth i x 0.

(** Two calls with options that are the same for the method. *)
Definition same_options (method : string) (c1 c2 : list (string * R)) : Prop :=
  forall name, In name (options_of method) -> given name c1 = given name c2.

(** The same result, but for the list of options that is kept in it. *)
Definition same_result (a b : outcome glmm_result) : Prop :=
  match a, b with
  | Ok (GlmmFit f l m meth _ d u), Ok (GlmmFit f' l' m' meth' _ d' u') => f = f' /\ l = l' /\ m = m' /\ meth = meth' /\ d = d' /\ u = u'
  | Ok (OptList o d u), Ok (OptList o' d' u') => o = o' /\ d = d' /\ u = u'
  | Throw e, Throw e' => e = e'
  | UB, UB | NoFuel, NoFuel => True
  | _, _ => False
  end.

(** A function of the parameters that does not see signs which the model does not see. *)
Definition sign_free (m : modfr Rnum) (r : retrms Rnum) (g : list R -> outcome R) : Prop :=
  forall theta theta' beta s, length theta = ntheta m -> length theta' = length theta -> length beta = mo_p _ m ->
    mirror (frame_of m r) beta theta theta' s -> g (theta' ++ beta)%list = g (theta ++ beta)%list.

(** What lme4 computes, seen with other signs of the random effects: the same deviance, and
    the mode and the precision with these signs; systems with the precision are solved. *)
Definition symmetric (solve : list (list R) -> list (list R) -> list (list R)) (n : nat) (m : modfr Rnum) (r : retrms Rnum)
    (devfun : list R -> outcome (R * list R * list (list R))) : Prop :=
  forall theta theta' beta s, length theta = ntheta m -> length theta' = length theta -> length beta = mo_p _ m ->
    mirror (frame_of m r) beta theta theta' s ->
    forall d mean P, devfun (theta ++ beta)%list = Ok (d, mean, P) -> length mean = nrandom m /\ solves solve (nrandom m) n P /\ (exists G, are_inverse (nrandom m) P G) /\
      exists P', devfun (theta' ++ beta)%list = Ok (d, flip s mean, P') /\ flipped (nrandom m) s P P' /\ solves solve (nrandom m) n P'.

(** A formula has a term with a bar, which lme4 looks for in the first two arguments of
    calls, on its right-hand side. *)
Inductive bar_in : rexpr -> Prop :=
| bar_here args : args <> [] -> bar_in (Call (Name "|" :: args))
| bar_first h a args : bar_in a -> bar_in (Call (h :: a :: args))
| bar_second h a b args : bar_in b -> bar_in (Call (h :: a :: b :: args)).
Definition random_outside_Sub (formula : rexpr) : Prop :=
  exists xs rhs, formula = Call (xs ++ [rhs])%list /\ bar_in rhs.

(** The option that is used: as given, or the default. *)
Definition used (name : string) (default : R) (control : list (string * R)) : R :=
  match given name control with Some v => v | None => default end.
