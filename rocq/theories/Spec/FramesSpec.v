(** Model frames and their linear predictors. *)
From Coq Require Import List Reals ZArith Sorted.
From Coquelicot Require Import Coquelicot.
From Verif Require Import Model.Base Model.Family Model.GLMM Model.SplitFrame Model.Frames Spec.Numbers Spec.GLMMSpec Spec.SplitSpec.
Import ListNotations.
Local Open Scope R_scope.

(** A frame for n observations whose parts fit together: in the columns of Lambdat the
    rows are in order, as they are in a dgCMatrix. *)
Record proper_re (n : nat) (r : retrms Rnum) : Prop := {
  pr_cols : length (cs_cols (rt_Zt _ r)) = n;
  pr_Zt : forall c e, In c (cs_cols (rt_Zt _ r)) -> In e c -> (fst e < cs_rows (rt_Zt _ r))%nat;
  pr_Lrows : cs_rows (rt_Lambdat _ r) = cs_rows (rt_Zt _ r);
  pr_Lcols : length (cs_cols (rt_Lambdat _ r)) = cs_rows (rt_Zt _ r);
  pr_sorted : forall c, In c (cs_cols (rt_Lambdat _ r)) -> StronglySorted lt (map fst c);
  pr_L : forall c e, In c (cs_cols (rt_Lambdat _ r)) -> In e c -> (fst e < cs_rows (rt_Zt _ r))%nat;
  pr_Lind : length (rt_Lind _ r) = length (concat (cs_cols (rt_Lambdat _ r)));
  pr_range : forall l, In l (rt_Lind _ r) -> (1 <= l <= Z.of_nat (length (rt_theta _ r)))%Z
}.
Record proper (n : nat) (m : modfr Rnum) : Prop := {
  pr_X : length (mo_X _ m) = n;
  pr_row : forall row, In row (mo_X _ m) -> length row = mo_p _ m;
  pr_re : forall r, mo_re _ m = Some r -> proper_re n r
}.

(** The numbers of parameters and of random effects. *)
Definition ntheta (m : modfr Rnum) : nat := match mo_re _ m with Some r => length (rt_theta _ r) | None => O end.
Definition nrandom (m : modfr Rnum) : nat := match mo_re _ m with Some r => cs_rows (rt_Zt _ r) | None => O end.

(** The frame as in R/splitframe.R. *)
Definition frame_of (m : modfr Rnum) (r : retrms Rnum) : frame Rnum :=
  mkFrame Rnum (mo_X _ m) (mo_p _ m) (rt_Zt _ r) (rt_Lambdat _ r) (rt_Lind _ r) (mo_response _ m) (mo_weights _ m).

(** X beta + Z Lambda(theta) u for observation k. *)
Definition predictor (m : modfr Rnum) (beta theta u : list R) (k : nat) : R :=
  match mo_re _ m with
  | Some r => eta (whole (frame_of m r)) beta theta u k
  | None => sumR (length beta) (fun j => at2 (mo_X _ m) k j * nth j beta 0)
  end.

(** The covariance of the linear predictors of observations k and l: that of
    Z Lambda(theta) u for independent standard normal u. *)
Definition covariance (m : modfr Rnum) (theta : list R) (k l : nat) : R :=
  match mo_re _ m with
  | Some r => sumR (nrandom m) (fun i => LZ (whole (frame_of m r)) theta i k * LZ (whole (frame_of m r)) theta i l)
  | None => 0
  end.

(** The places of Lambdat in the order in which they are stored, and the parameters that
    belong to them. *)
Definition places (r : retrms Rnum) : list (nat * nat * Z) :=
  combine (concat (map (fun jc => map (fun e => (fst e, fst jc)) (snd jc))
    (combine (seq 0 (length (cs_cols (rt_Lambdat _ r)))) (cs_cols (rt_Lambdat _ r))))) (rt_Lind _ r).

(** The bounds as lme4 sets them: one for each parameter, 0 for those of the diagonal
    and -Inf for the others. *)
Definition bounds_fit (r : retrms Rnum) : Prop :=
  length (rt_lower _ r) = length (rt_theta _ r) /\
  forall i j l, In (i, j, l) (places r) -> (nth (Z.to_nat (l - 1)) (rt_lower _ r) MinusInf = Zero <-> i = j).

(** Signs, and a vector with the signs changed. *)
Definition sign (s : R) : Prop := s = 1 \/ s = -1.
Definition flip (s u : list R) : list R := map (fun su => fst su * snd su) (combine s u).

(** Given the parameters, the joint density of the observations and of the random
    effects u, for n observations; [density] is that of the observations given their
    linear predictors. *)
Definition joint (n : nat) (density : list R -> R) (m : modfr Rnum) (beta theta u : list R) : R :=
  density (map (predictor m beta theta u) (seq 0 n)) * exp (- sumR (length u) (fun i => nth i u 0 * nth i u 0) / 2).

(** The integral of a function of q numbers over the cube [-a, a]^q. *)
Fixpoint cube (q : nat) (a : R) (g : list R -> R) : R :=
  match q with
  | O => g []
  | S q' => RInt (fun x => cube q' a (fun u => g (x :: u))) (- a) a
  end.
