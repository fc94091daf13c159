(** Responses with two columns, cbind(successes, failures), which binomial families have
    in R. *)
From Coq Require Import List ZArith Reals.
From Verif Require Import Model.Base Model.Family Model.GLMM Model.SplitFrame Model.Frames Spec.Numbers.
Import ListNotations.

Section TwoColumn.
Context (F : num).

(** A frame whose response has the two columns [response_vector (fr_response tc_frame)] and
    [tc_second]. *)
Record two_columns := mkTwo { tc_frame : frame F; tc_second : vec F }.

(** find_local_term, R/splitframe.R:30-60, if NCOL(resp) is 2: resp_C is the matrix
    resp[obs_C, , drop = FALSE] (line 55, marked FIXME).  In C++ it is an Eigen::ArrayXd
    (src/RcppR6.cpp:9-11), and the conversion takes the elements of the matrix, one
    column after the other; that is RcppEigen's conversion of numeric vectors, which goes by
    the length and does not look at the dimensions. *)
Definition two_column_local_term (e : list nat * list nat) (t : two_columns) : outcome (glmm_data F) :=
  d <- find_local_term F e (tc_frame t) ;;
  second_C <- at_obs (tc_second t) (snd e) ;;
  Ok (mkData F (gd_items _ d) (gd_X _ d) (gd_numFixed _ d) (gd_Zt _ d) (gd_numObs _ d) (gd_Lambdat _ d) (gd_Lind _ d)
        (gd_response _ d ++ second_C) (gd_weights _ d)).

(** find_factorization_terms, R/splitframe.R:62-86. *)
Definition two_column_factorization_terms (t : two_columns) : outcome (list (term F)) :=
  let fr := tc_frame t in
  let act := find_active (fr_Lambdat _ fr) (fr_Zt _ fr) in
  let cliques := unique identical act in
  let n_obs := length (cs_cols (fr_Zt _ fr)) in
  let n_re := cs_rows (fr_Zt _ fr) in
  cliques_ext <- add_obs cliques act (one_to n_obs) ;;
  ds <- mapM (fun e => two_column_local_term e t) cliques_ext ;;
  Ok (map (GLMMTerm F) ds ++ map (fun i => NormalTerm F [(Z.of_nat i - 1)%Z] [nZ F 0] [[nZ F 1]]) (seq 1 n_re)).

(** For find_epsilon_1 (R/hol.R:18-24) and find_log_integrand (R/IS.R:38-60) a matrix is
    the vector of its elements: it is used in length() and rep() and passed to C++.  [m] has
    the first column. *)
Definition two_column_modfr (m : modfr F) (second : vec F) : modfr F :=
  mkModfr F (mo_X _ m) (mo_p _ m) (mo_re _ m) (Numeric F (response_vector F (mo_response _ m) ++ second)) (mo_weights _ m).
End TwoColumn.
