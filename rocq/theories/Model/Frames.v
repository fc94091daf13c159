(** R/model_frames.R, lines 179-219: putting model frames together; and what glmm
    does with the estimates, R/fit.R:71-72. *)
From Coq Require Import List ZArith Bool Arith.
From Verif Require Import Model.Base Model.Family Model.GLMM Model.SplitFrame.
Import ListNotations.

Section Frames.
Context (F : num).

(** A lower bound of a parameter in reTrms$lower: 0 or -Inf. *)
Inductive bound := Zero | MinusInf.

(** The parts of reTrms that are used; there is no component upper. *)
Record retrms := mkRe {
  rt_Zt : csc F;
  rt_theta : vec F;
  rt_Lind : list Z;
  rt_lower : list bound;
  rt_Lambdat : csc F
}.

(** A model frame; the one of a subformula has no response and no weights, here it has
    any.  [mo_p] is ncol(X). *)
Record modfr := mkModfr {
  mo_X : mat F;
  mo_p : nat;
  mo_re : option retrms;
  mo_response : response F;
  mo_weights : option (vec F)
}.

(** The triplets of a matrix of class dgTMatrix made from a dgCMatrix: in the order of
    the columns. *)
Definition triplet_form (m : csc F) : list (nat * nat * F) :=
  concat (map (fun jc => map (fun e => (fst e, fst jc, snd e)) (snd jc)) (combine (seq 0 (length (cs_cols m))) (cs_cols m))).

(** Matrix::sparseMatrix(i, j, x, dims): in every column the rows in increasing order,
    triplets for the same place added up. *)
Definition sparseMatrix (t : list (nat * nat * F)) (rows cols : nat) : csc F :=
  mkCsc rows (map (fun j => concat (map (fun i =>
    match filter (fun e => Nat.eqb (fst (fst e)) i && Nat.eqb (snd (fst e)) j) t with
    | [] => []
    | es => [(i, nsum F (map snd es))]
    end) (seq 0 rows))) (seq 0 cols)).

(** concatenate_Matrix, lines 179-188.  (Rows and columns are numbered from 0 here, the
    1 added to i and j is left out.) *)
Definition concatenate_Matrix (m1 m2 : csc F) : csc F :=
  let r1 := cs_rows m1 in let c1 := length (cs_cols m1) in
  sparseMatrix (triplet_form m1 ++ map (fun e => (r1 + fst (fst e), c1 + snd (fst e), snd e)) (triplet_form m2))
    (r1 + cs_rows m2) (c1 + length (cs_cols m2)).

(** rbind(Zt1, Zt2) of sparse matrices. *)
Definition rbind (m1 m2 : csc F) : outcome (csc F) :=
  if Nat.eqb (length (cs_cols m1)) (length (cs_cols m2)) then
    Ok (mkCsc (cs_rows m1 + cs_rows m2)
          (map (fun cc => fst cc ++ map (fun e => (cs_rows m1 + fst e, snd e)) (snd cc)) (combine (cs_cols m1) (cs_cols m2))))
  else Throw RuntimeError.

(** cbind(X1, X2). *)
Definition cbind (X1 X2 : mat F) : outcome (mat F) :=
  if Nat.eqb (length X1) (length X2) then Ok (map (fun rr => fst rr ++ snd rr) (combine X1 X2)) else Throw RuntimeError.

(** concatenate_frames, lines 190-214.  Line 201 takes reTrms2$upper, which is NULL, so
    that only the bounds of the first frame remain.  (Gp, flist, cnms and Ztlist are not
    modelled.) *)
Definition concatenate_frames (m1 m2 : modfr) : outcome modfr :=
  X <- cbind (mo_X m1) (mo_X m2) ;;
  re <- match mo_re m1, mo_re m2 with
        | Some r1, Some r2 =>
            Zt <- rbind (rt_Zt r1) (rt_Zt r2) ;;
            Ok (Some (mkRe Zt (rt_theta r1 ++ rt_theta r2)
                        (rt_Lind r1 ++ map (fun l => (l + Z.of_nat (length (rt_theta r1)))%Z) (rt_Lind r2))
                        (rt_lower r1 ++ [])
                        (concatenate_Matrix (rt_Lambdat r1) (rt_Lambdat r2))))
        | Some r1, None => Ok (Some r1)
        | None, Some r2 => Ok (Some r2)
        | None, None => Ok None
        end ;;
  Ok (mkModfr X (mo_p m1 + mo_p m2) re (mo_response m1) (mo_weights m1)).

(** attach_subframes, lines 216-219: Reduce works from the left. *)
Definition attach_subframes (m : modfr) (subframes : list modfr) : outcome modfr :=
  match subframes with
  | [] => Throw RuntimeError
  | s :: ss =>
      combined <- foldM (fun acc x => concatenate_frames acc x) ss s ;;
      concatenate_frames m combined
  end.

Definition abs (x : F) : F := if nltb F x (nZ F 0) then nopp F x else x.

(** The estimates that are reported, R/fit.R:71-72: of theta, of which there are
    [p_theta], the absolute values, if all the bounds are 0. *)
Definition report_estim (lower : list bound) (p_theta : nat) (estim : vec F) : vec F :=
  if forallb (fun b => match b with Zero => true | MinusInf => false end) lower then
    map abs (firstn p_theta estim) ++ skipn p_theta estim
  else estim.
End Frames.
