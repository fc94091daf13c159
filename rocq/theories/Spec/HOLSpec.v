(** The second-order term of Laplace's approximation. *)
From Coq Require Import List Reals.
From Coquelicot Require Import Coquelicot.
From Verif Require Import Model.Base Model.Family Model.SplitFrame Model.Frames Spec.Numbers Spec.FamilySpec Spec.GLMMSpec Spec.FramesSpec Spec.ISSpec.
From Verif Require Spec.MatrixSpec.
Import ListNotations.
Local Open Scope R_scope.

(** The logarithm of the joint density of the observations y, binomial proportions with
    weights w and inverse link P, and of the random effects u. *)
Definition log_density (n : nat) (P : R -> R) (m : modfr Rnum) (y w beta theta u : list R) : R :=
  loglik (map (fun k => P (predictor m beta theta u k)) (seq 0 n)) y w + ln (std_normal u).

(** The partial derivatives of f, a function of d numbers, of the orders 1 to 4. *)
Record derivatives4 (d : nat) (f : list R -> R) (f1 : nat -> list R -> R) (f2 : nat -> nat -> list R -> R)
    (f3 : nat -> nat -> nat -> list R -> R) (f4 : nat -> nat -> nat -> nat -> list R -> R) : Prop := {
  de_1 : forall i u, (i < d)%nat -> length u = d -> is_partial_n f i 1 u (f1 i u);
  de_2 : forall i j u, (i < d)%nat -> (j < d)%nat -> length u = d -> is_partial_n (f1 i) j 1 u (f2 i j u);
  de_3 : forall i j k u, (i < d)%nat -> (j < d)%nat -> (k < d)%nat -> length u = d -> is_partial_n (f2 i j) k 1 u (f3 i j k u);
  de_4 : forall i j k l u, (i < d)%nat -> (j < d)%nat -> (k < d)%nat -> (l < d)%nat -> length u = d -> is_partial_n (f3 i j k) l 1 u (f4 i j k l u)
}.

(** The term of the expansion of log int exp(- g) after the first-order approximation
    (Shun and McCullagh 1995), where G is the inverse of the matrix of second derivatives
    of g and g3, g4 are the third and the fourth derivatives, all at the mode. *)
Definition second_order (d : nat) (G : nat -> nat -> R) (g3 : nat -> nat -> nat -> R) (g4 : nat -> nat -> nat -> nat -> R) : R :=
  - (1 / 8) * sumR d (fun i => sumR d (fun j => sumR d (fun k => sumR d (fun l => g4 i j k l * G i j * G k l))))
  + 1 / 12 * sumR d (fun i => sumR d (fun r => sumR d (fun j => sumR d (fun s => sumR d (fun k => sumR d (fun t =>
      g3 i j k * g3 r s t * G i r * G j s * G k t))))))
  + 1 / 8 * sumR d (fun i => sumR d (fun j => sumR d (fun k => sumR d (fun r => sumR d (fun s => sumR d (fun t =>
      g3 i j k * g3 r s t * G i j * G k r * G s t)))))).

(** X solves H X = B for a matrix B of d rows and c columns. *)
Definition solution (d c : nat) (H B X : list (list R)) : Prop :=
  sized d c X /\ forall i j, (i < d)%nat -> (j < c)%nat -> sumR d (fun k => at_ H i k * at_ X k j) = at_ B i j.
(** What is expected of a routine that solves systems with the matrix H. *)
Definition solves (solve : list (list R) -> list (list R) -> list (list R)) (d c : nat) (H : list (list R)) : Prop :=
  forall B, sized d c B -> solution d c H B (solve H B).
