(** What the log-density of the responses and its derivatives should be. *)
From Coq Require Import List Reals ZArith Lia.
From Coquelicot Require Import Coquelicot.
From Verif Require Import Model.Base.
Import ListNotations.
Local Open Scope R_scope.

(** The k-th derivative of [f], a function of a vector, in coordinate [i] at [v]. *)
Definition is_partial_n (f : list R -> R) (i k : nat) (v : list R) (l : R) : Prop :=
  is_derive_n (fun t => f (upd v i t)) k (nth i v 0) l.

(** Inverse links, independent of the formulas in the code. *)
Definition logistic (t : R) : R := / (1 + exp (- t)).
Definition gaussian_kernel (t : R) : R := exp (- (t * t) / 2).
(** The standard normal distribution function, as the solution of Phi' = phi,
    Phi(0) = 1/2. *)
Definition is_normal_cdf (P : R -> R) : Prop :=
  P 0 = 1 / 2 /\ forall t, is_derive P t (gaussian_kernel t / sqrt (2 * PI)).

(** The mean moved into [1e-8, 1 - 1e-8]. *)
Definition tiny : R := / 10 ^ 8.
Definition clip (p : R) : R := Rmax tiny (Rmin p (1 - tiny)).

(** Log-likelihood of binomial proportions [y] with weights [w] and success
    probabilities [p], without the binomial coefficients. *)
Fixpoint loglik (p y w : list R) : R :=
  match p, y, w with
  | a :: p', b :: y', c :: w' => c * (b * ln a + (1 - b) * ln (1 - a)) + loglik p' y' w'
  | _, _, _ => 0
  end.
