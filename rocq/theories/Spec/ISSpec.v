(** What importance sampling should compute. *)
From Coq Require Import List Reals ZArith.
From Coquelicot Require Import Coquelicot.
From Verif Require Import Model.Base Model.Family Model.SplitFrame Model.Frames Spec.Numbers Spec.GLMMSpec Spec.FramesSpec.
From Verif Require Spec.MatrixSpec Spec.LaplaceSpec.
Import ListNotations.
Local Open Scope R_scope.

Notation at_ := MatrixSpec.entry.

(** The standard normal density in d dimensions. *)
Definition phi (x : R) : R := exp (- (x * x) / 2) / sqrt (2 * PI).
Definition std_normal (z : list R) : R := fold_right Rmult 1 (map phi z).

(** The j-th of the draws that are the columns of a matrix. *)
Definition draw (u : list (list R)) (j : nat) : list R := map (fun row => nth j row 0) u.
(** A matrix of d rows and r columns. *)
Definition sized (d r : nat) (u : list (list R)) : Prop := length u = d /\ forall row, In row u -> length row = r.

(** The logarithm of the function of u that is to be integrated: minus half the deviance
    (given by the function dev of response, mean and weight, added over the
    observations), and the normal density of u. *)
Definition log_joint (n : nat) (mean_of : R -> R) (dev : R -> R -> R -> R) (m : modfr Rnum) (y w beta theta u : list R) : R :=
  - sumR n (fun k => dev (nth k y 0) (mean_of (predictor m beta theta u k)) (nth k w 0)) / 2 + ln (std_normal u).

(** R is the Cholesky factor of P. *)
Definition upper (d : nat) (Rm : list (list R)) : Prop := forall i j, (i < d)%nat -> (j < i)%nat -> at_ Rm i j = 0.
Definition cholesky (d : nat) (P Rm : list (list R)) : Prop :=
  MatrixSpec.square d P /\ MatrixSpec.square d Rm /\ upper d Rm /\ (forall i, (i < d)%nat -> 0 < at_ Rm i i) /\
  forall i j, (i < d)%nat -> (j < d)%nat -> sumR d (fun k => at_ Rm k i * at_ Rm k j) = at_ P i j.

(** mean + C^T z. *)
Definition image (d : nat) (C : list (list R)) (mean z : list R) : list R :=
  map (fun a => nth a mean 0 + sumR d (fun b => at_ C b a * nth b z 0)) (seq 0 d).
(** The covariance of components i and j of mean + C^T z, if those of z are independent
    with variance 1. *)
Definition image_cov (d : nat) (C : list (list R)) (i j : nat) : R := sumR d (fun k => at_ C k i * at_ C k j).

(** Integrals over the line, and over d-dimensional space, the first component being the
    outermost. *)
Definition line (f : R -> R) : R := RInt_gen f (Rbar_locally m_infty) (Rbar_locally p_infty).
Fixpoint space (d : nat) (g : list R -> R) : R :=
  match d with
  | O => g []
  | S d' => line (fun x => space d' (fun u => g (x :: u)))
  end.

(** The arithmetic mean of r numbers. *)
Definition average (r : nat) (f : nat -> R) : R := sumR r f / INR r.

(** The log likelihood of the saturated binomial model: every mean is the response. *)
Definition xlogx (x : R) : R := if Req_EM_T x 0 then 0 else x * ln x.
Definition saturated (n : nat) (y w : list R) : R := sumR n (fun k => nth k w 0 * (xlogx (nth k y 0) + xlogx (1 - nth k y 0))).

(** A model frame of n observations with numbers as responses, and parameters for it. *)
Record fits (n : nat) (m : modfr Rnum) (r : retrms Rnum) (y w theta beta : list R) : Prop := {
  ft_proper : proper n m;
  ft_re : mo_re _ m = Some r;
  ft_n : (0 < n)%nat;
  ft_theta : (0 < ntheta m)%nat;
  ft_ltheta : length theta = ntheta m;
  ft_lbeta : length beta = mo_p _ m;
  ft_y : mo_response _ m = Numeric Rnum y;
  ft_ly : length y = n;
  ft_w : w = match mo_weights _ m with Some v => v | None => repeat 1 n end;
  ft_lw : length w = n
}.

(** What is expected of chol, solve and determinant for the matrix P. *)
Record routines (d : nat) (chol solve : list (list R) -> list (list R)) (determinant : list (list R) -> R) (P : list (list R)) : Prop := {
  ro_chol : cholesky d P (chol P);
  ro_solve : MatrixSpec.are_inverse d (chol P) (solve (chol P));
  ro_det : determinant P = LaplaceSpec.det d (at_ P)
}.
