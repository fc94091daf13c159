(** What a GLMM factor should compute, in exact arithmetic. *)
From Coq Require Import List Reals ZArith Lia.
From Coquelicot Require Import Coquelicot.
From Verif Require Import Model.Base Model.Family Model.GLMM Spec.Numbers Spec.FamilySpec.
Import ListNotations.
Local Open Scope R_scope.

(** f 0 + ... + f (n-1). *)
Definition sumR (n : nat) (f : nat -> R) : R := fold_right Rplus 0 (map f (seq 0 n)).
Definition at2 (m : list (list R)) (i j : nat) : R := nth j (nth i m []) 0.

(** The places (row, column) of the stored entries of a sparse matrix, in the
    order in which they are stored. *)
Definition places (s : sparse Rnum) : list (nat * nat) :=
  concat (map (fun jc => map (fun e => (fst e, fst jc)) (snd jc))
              (combine (seq 0 (length (sp_cols _ s))) (sp_cols _ s))).

(** The matrix Lambda^T(theta) of the model: the t-th stored place holds the
    component of theta numbered by the t-th entry of Lind. *)
Definition Lam (d : glmm_data Rnum) (theta : list R) (r j : nat) : R :=
  fold_right Rplus 0
    (map (fun pi : nat * nat * Z => nth (Z.to_nat (snd pi)) theta 0)
         (filter (fun pi => andb (Nat.eqb (fst (fst pi)) r) (Nat.eqb (snd (fst pi)) j))
                 (combine (places (gd_Lambdat _ d)) (gd_Lind _ d)))).

(** Row r, column k of Lambda^T(theta) Z^T. *)
Definition LZ (d : glmm_data Rnum) (theta : list R) (r k : nat) : R :=
  sumR (length (gd_Zt _ d)) (fun j => Lam d theta r j * at2 (gd_Zt _ d) j k).

(** eta_k = (X beta)_k + (Z Lambda(theta) x)_k. *)
Definition eta (d : glmm_data Rnum) (beta theta x : list R) (k : nat) : R :=
  sumR (length beta) (fun j => at2 (gd_X _ d) k j * nth j beta 0) +
  sumR (length x) (fun r => LZ d theta r k * nth r x 0).

(** The sizes fit together. *)
Record shaped (d : glmm_data Rnum) : Prop := {
  sh_X : length (gd_X _ d) = gd_numObs _ d;
  sh_Xrow : forall row, In row (gd_X _ d) -> length row = gd_numFixed _ d;
  sh_Zt : length (gd_Zt _ d) = length (sp_cols _ (gd_Lambdat _ d));
  sh_Ztrow : forall row, In row (gd_Zt _ d) -> length row = gd_numObs _ d;
  sh_rows : sp_rows _ (gd_Lambdat _ d) = length (gd_items _ d);
  sh_Lind : length (gd_Lind _ d) = length (places (gd_Lambdat _ d));
  sh_y : length (gd_response _ d) = gd_numObs _ d;
  sh_w : length (gd_weights _ d) = gd_numObs _ d
}.

(** Every entry of Lind is the number of one of n components. *)
Definition in_range (n : nat) (Lind : list Z) : Prop :=
  forall i, In i Lind -> (0 <= i < Z.of_nat n)%Z.

(** Calls made on the object. *)
Inductive gcall := Evaluate | Derivative | SecondDerivative.
Definition run_gcall (d : glmm_data Rnum) (c : cache Rnum) (g : gcall * list R * params Rnum)
  : outcome (cache Rnum) :=
  let '(k, x, p) := g in
  match k with
  | Evaluate => r <- glmm_evaluate Rnum d c x p ;; Ok (snd r)
  | Derivative => r <- glmm_evaluateDerivative Rnum d c x p ;; Ok (snd r)
  | SecondDerivative => r <- glmm_evaluateSecondDerivative Rnum d c x p ;; Ok (snd r)
  end.

(** The log-likelihood of the observations of the factor as a function of the
    random effects; [P] is the inverse link. *)
Definition factor_loglik (P : R -> R) (d : glmm_data Rnum) (beta theta x : list R) : R :=
  loglik (map (fun k => clip (P (eta d beta theta x k))) (seq 0 (gd_numObs _ d)))
         (gd_response _ d) (gd_weights _ d).

(** The inverse link of a family. *)
Definition inverse_link (l : link) (P : R -> R) : Prop :=
  l = Logit /\ (forall t, P t = logistic t) \/ l = Probit /\ is_normal_cdf P.

(** [h] is the second partial derivative of [f] in the coordinates [r], then [s]. *)
Definition is_mixed_partial (f : list R -> R) (r s : nat) (v : list R) (h : R) : Prop :=
  is_derive (fun t => Derive (fun u => f (upd (upd v s t) r u)) (nth r (upd v s t) 0)) (nth s v 0) h.
