(** Functions of several variables, independent of the code. *)
From Coq Require Import List Reals.
From Verif Require Import Model.Base.
Import ListNotations.
Local Open Scope R_scope.

(** The vectors x + h and g . h, and |h|_1. *)
Definition plus_v (x h : list R) : list R := map (fun p => fst p + snd p) (combine x h).
Definition scalar (g h : list R) : R := fold_right Rplus 0 (map (fun p => fst p * snd p) (combine g h)).
Definition norm1 (h : list R) : R := fold_right Rplus 0 (map Rabs h).

(** [g] is the gradient of [f], a function of [n] variables, at [x]: f is
    differentiable there (in the sense of Frechet) and
    f(x + h) = f(x) + g . h + o(|h|). *)
Definition is_gradient (n : nat) (f : list R -> R) (x g : list R) : Prop :=
  length g = n /\
  forall eps, 0 < eps -> exists delta, 0 < delta /\
    forall h, length h = n -> norm1 h < delta ->
      Rabs (f (plus_v x h) - f x - scalar g h) <= eps * norm1 h.

(** [g] and [H] are the gradient and the (symmetric) Hessian of [f] everywhere. *)
Record smooth (n : nat) (f : list R -> R) (g : list R -> list R) (H : list R -> list (list R)) : Prop := {
  s_grad : forall x, length x = n -> is_gradient n f x (g x);
  s_rows : forall x, length x = n -> length (H x) = n;
  s_hess : forall x i, length x = n -> (i < n)%nat ->
             is_gradient n (fun y => nth i (g y) 0) x (nth i (H x) []);
  s_sym : forall x i j, length x = n -> (i < n)%nat -> (j < n)%nat ->
             nth j (nth i (H x) []) 0 = nth i (nth j (H x) []) 0
}.
