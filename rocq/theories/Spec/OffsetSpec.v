(** Models with an offset: a known number that is added to the linear predictor of each
    observation (man/glmm.Rd:41-46). *)
From Coq Require Import List ZArith Reals.
From Verif Require Import Model.Base Model.Family Model.GLMM Model.SplitFrame Model.Frames Spec.Numbers Spec.FamilySpec Spec.GLMMSpec Spec.SplitSpec
  Spec.FramesSpec Spec.ISSpec Spec.LfunSpec.
Import ListNotations.
Local Open Scope R_scope.

Definition offset_at (o : option (list R)) (k : nat) : R := match o with Some l => nth k l 0 | None => 0 end.
Definition no_offset (o : option (list R)) : Prop := forall k, offset_at o k = 0.

(** As [joint_density] of Spec/LfunSpec.v, [log_joint] of Spec/ISSpec.v and [log_density] of
    Spec/HOLSpec.v. *)
Definition offset_density (P : R -> R) (fr : frame Rnum) (o : option (list R)) (beta theta : list R) (w : Z -> R) : R :=
  let d := whole fr in let x := map w (effects fr) in
  loglik (map (fun k => clip (P (eta d beta theta x k + offset_at o k))) (seq 0 (gd_numObs _ d))) (gd_response _ d) (gd_weights _ d)
  + ln (std_normal x).
Definition offset_log_joint (n : nat) (mean_of : R -> R) (dev : R -> R -> R -> R) (m : modfr Rnum) (o : option (list R))
    (y w beta theta u : list R) : R :=
  - sumR n (fun k => dev (nth k y 0) (mean_of (predictor m beta theta u k + offset_at o k)) (nth k w 0)) / 2 + ln (std_normal u).
Definition offset_log_density (n : nat) (P : R -> R) (m : modfr Rnum) (o : option (list R)) (y w beta theta u : list R) : R :=
  loglik (map (fun k => P (predictor m beta theta u k + offset_at o k)) (seq 0 n)) y w + ln (std_normal u).
