(** Sequences of operations on a cluster graph, and the total of its log-values. *)
From Coq Require Import List ZArith Bool.
From Verif Require Import Model.Base Model.Mixed Model.ClusterGraph Spec.BeliefSpec.
Import ListNotations.

Section M.
Context {S : sig}.

(** What a client (or the calibration loops) can do to a cluster graph. *)
Inductive op :=
| OpPass (k : nat) (forward normalApproxOnly : bool)    (* one message *)
| OpSetNormal (mean : list (D S)) (precision : Z -> Z -> D S)
| OpForward | OpBackward | OpCalibrate
| OpMargin (items : list Z).

Definition run_op (cg : cgraph S) (o : op) : outcome (cgraph S) :=
  match o with
  | OpPass k f n => passMessage cg k f n
  | OpSetNormal mean prec => cg_setNormalApprox cg mean prec
  | OpForward => calibrateForward cg
  | OpBackward => calibrateBackward cg
  | OpCalibrate => calibrate cg
  | OpMargin items => r <- cg_margin cg items ;; Ok (snd r)
  end.
Definition run_ops (cg : cgraph S) (ops : list op) : outcome (cgraph S) := foldM run_op ops cg.

(** Log-value of a belief when item i takes the value w i. *)
Definition lval (w : Z -> D S) (m : mixed S) : outcome (D S) :=
  evaluate m (map w (m_items m)).

Definition sum_lvals (w : Z -> D S) (l : list (mixed S)) : outcome (D S) :=
  vs <- mapM (lval w) l ;; Ok (dsumS S vs).

(** Clusters minus separators. *)
Definition potential (cg : cgraph S) (w : Z -> D S) : outcome (D S) :=
  c <- sum_lvals w (cg_clusters cg) ;;
  e <- sum_lvals w (map e_belief (cg_edges cg)) ;;
  Ok (dsub S c e).
End M.
