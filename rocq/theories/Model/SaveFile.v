(** R/splitframe.R:88-134: writing a factorization, or a normal distribution, to a file.
    [text15] is as.character() of a double, which has 15 significant digits, and [text7] is
    what cat() makes of one, with 7 digits.  A file is the string of its characters. *)
From Coq Require Import String Ascii List ZArith Reals.
From Verif Require Import Model.Base Model.Family Model.GLMM Model.SplitFrame Spec.Numbers.
Import ListNotations.
Local Open Scope string_scope.
Notation length := List.length.

Definition newline : string := String (ascii_of_nat 10) "".

(** cat() of words, with the default separator. *)
Definition cat (words : list string) : string := String.concat " " words.

(** c(M) for a matrix with p columns: one column after the other. *)
Definition by_columns (p : nat) (M : mat Rnum) : list R :=
  concat (map (fun j => map (fun row => nth j row 0%R) M) (seq 0 p)).

(** as.numeric(rbind(T@i, T@j, T@x)) for T the triplet form, lines 92-95 and 127-131. *)
Definition triplet_numbers (cols : list (list (nat * R))) : list R :=
  concat (map (fun jc => concat (map (fun e => [IZR (Z.of_nat (fst e)); IZR (Z.of_nat (fst jc)); snd e]) (snd jc)))
              (combine (seq 0 (length cols)) cols)).

Section Save.
Context (text15 text7 : R -> string).

(** The words of a response: for a factor it is a logical vector (lines 39-42), and
    c("G", TRUE) is c("G", "TRUE"). *)
Definition response_words (logical : bool) (y : list R) : list string :=
  if logical then map (fun v => if Req_EM_T v 0 then "FALSE" else "TRUE") y else map text15 y.

(** lmodfr_to_oneline, R/splitframe.R:88-101, for a response with one column.  The local
    term has the form that it has in C++ (Model/SplitFrame.v): its items and Lind have been
    made to start from 0. *)
Definition oneline_words (logical : bool) (d : glmm_data Rnum) : list string :=
  let nentries := length (concat (sp_cols _ (gd_Lambdat _ d))) in
  let whole n := text15 (IZR (Z.of_nat n)) in
  ["G"; whole (length (gd_items _ d))] ++ map (fun i => text15 (IZR i)) (gd_items _ d) ++
  [whole (gd_numObs _ d); whole (gd_numFixed _ d)] ++
  map text15 (by_columns (gd_numFixed _ d) (gd_X _ d)) ++ map text15 (by_columns (gd_numObs _ d) (gd_Zt _ d)) ++
  [whole nentries] ++ map text15 (triplet_numbers (sp_cols _ (gd_Lambdat _ d))) ++
  map (fun i => text15 (IZR i)) (gd_Lind _ d) ++ response_words logical (gd_response _ d) ++ map text15 (gd_weights _ d).

Definition lmodfr_to_oneline (logical : bool) (d : glmm_data Rnum) : string := cat (oneline_words logical d) ++ newline.

(** The line of a standard normal factor, R/splitframe.R:119-121. *)
Definition normal_line (i : nat) : string :=
  cat ["N"; text7 1; text7 (IZR (Z.of_nat i - 1)); text7 0; text7 1; newline].

(** save_factorization_to_file, R/splitframe.R:103-122: the contents of the file. *)
Definition save_factorization (fr : frame Rnum) : outcome string :=
  let act := find_active (fr_Lambdat _ fr) (fr_Zt _ fr) in
  let cliques := unique identical act in
  let n_obs := length (cs_cols (fr_Zt _ fr)) in
  let n_re := cs_rows (fr_Zt _ fr) in
  let logical := match fr_response _ fr with Numeric _ => false | Factor _ => true end in
  cliques_ext <- add_obs cliques act (one_to n_obs) ;;
  lines <- mapM (fun e => lmodfr <- find_local_term Rnum e fr ;; Ok (lmodfr_to_oneline logical lmodfr)) cliques_ext ;;
  Ok (String.concat "" (lines ++ map normal_line (seq 1 n_re))).

(** save_normal, R/splitframe.R:124-134: two lines.  The precision is given by its columns. *)
Definition save_normal (mean : list R) (precision : list (list (nat * R))) : string :=
  let numbers := IZR (Z.of_nat (length (concat precision))) :: triplet_numbers precision in
  cat (map text7 mean ++ [newline]) ++ cat (map text7 numbers ++ [newline]).
End Save.
