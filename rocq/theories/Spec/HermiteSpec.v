(** Polynomials, eigendecompositions and integrals against a normal kernel,
    independent of the code. *)
From Coq Require Import List Reals Arith.
From Coquelicot Require Import Coquelicot.
From Verif Require Import Spec.GLMMSpec Spec.MatrixSpec.
Import ListNotations.
Local Open Scope R_scope.

(** The polynomial with the given coefficients, that of x^0 first; its degree is
    less than the number of coefficients. *)
Definition poly (p : list R) (x : R) : R := fold_right (fun c acc => c + x * acc) 0 p.

(** [lam] and the columns of [Q] are eigenvalues and orthonormal eigenvectors of
    the symmetric n x n matrix with lower triangle [L]. *)
Definition lower (L : list (list R)) (i j : nat) : R := if Nat.leb j i then entry L i j else entry L j i.
Record eigendecomposition (n : nat) (L : list (list R)) (lam : list R) (Q : list (list R)) : Prop := {
  ed_values : length lam = n;
  ed_vectors : square n Q;
  ed_orthonormal : forall a b, (a < n)%nat -> (b < n)%nat ->
    sumR n (fun i => entry Q a i * entry Q b i) = unit_entry a b;
  ed_eigen : forall a i, (a < n)%nat -> (i < n)%nat ->
    sumR n (fun b => lower L a b * entry Q b i) = nth i lam 0 * entry Q a i
}.

(** The kernel exp(-(t - mu)^2 / (2 sigma^2)), and integrals over the real line. *)
Definition normal_kernel (mu sigma t : R) : R := exp (- ((t - mu) ^ 2 / (2 * sigma ^ 2))).
Definition integral (f : R -> R) (l : R) : Prop :=
  is_RInt_gen f (Rbar_locally m_infty) (Rbar_locally p_infty) l.
