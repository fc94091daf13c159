(** Reading a file with one factor on each line. *)
From Coq Require Import String Ascii List ZArith Reals.
From Verif Require Import Model.Base Model.Family Model.GLMM Model.SplitFrame Spec.Numbers.
Import ListNotations.
Local Open Scope string_scope.
Notation length := List.length.

(** The parts of a string between the places where a character occurs. *)
Fixpoint split_at (c : ascii) (s : string) : list string :=
  match s with
  | "" => [""]
  | String a s' =>
      match split_at c s' with
      | [] => []
      | w :: ws => if Ascii.eqb a c then "" :: w :: ws else String a w :: ws
      end
  end.
Definition nonblank (s : string) : bool := match s with "" => false | _ => true end.
Definition lines_of (s : string) : list string := filter nonblank (split_at (ascii_of_nat 10) s).
Definition words_of (s : string) : list string := filter nonblank (split_at " " s).

(** What is known of a way to write numbers: a number is one word, from which [value] gets
    the number back after rounding, and whole numbers below a limit are not rounded. *)
Fixpoint has_char (c : ascii) (s : string) : bool :=
  match s with "" => false | String a s' => Ascii.eqb a c || has_char c s' end.
Record writes_numbers (text : R -> string) (value : string -> option R) (round : R -> R) (limit : Z) : Prop := {
  wn_word : forall x, text x <> "" /\ has_char " " (text x) = false /\ has_char (ascii_of_nat 10) (text x) = false;
  wn_value : forall x, value (text x) = Some (round x);
  wn_whole : forall z, (Z.abs z < limit)%Z -> round (IZR z) = IZR z
}.

Section Read.
Context (value : string -> option R).

(** A reader takes what it needs from the words of a line. *)
Definition reader A := list string -> option (A * list string).
Definition number : reader R := fun ws =>
  match ws with w :: ws' => match value w with Some x => Some (x, ws') | None => None end | [] => None end.
Definition whole_number : reader Z := fun ws => match number ws with Some (x, ws') => Some (Int_part x, ws') | None => None end.
Definition then_ {A B} (r : reader A) (f : A -> reader B) : reader B :=
  fun ws => match r ws with Some (a, ws') => f a ws' | None => None end.
Definition give {A} (a : A) : reader A := fun ws => Some (a, ws).
Notation "x <~ r ;; s" := (then_ r (fun x => s)) (at level 61, r at next level, right associativity).
Fixpoint many {A} (n : nat) (r : reader A) : reader (list A) :=
  match n with O => give [] | S n' => x <~ r ;; l <~ many n' r ;; give (x :: l) end.
Definition triplet : reader (nat * nat * R) := i <~ whole_number ;; j <~ whole_number ;; x <~ number ;; give (Z.to_nat i, Z.to_nat j, x).

(** The matrix whose elements, one column after the other, are in a list. *)
Definition matrix_of (rows cols : nat) (l : list R) : list (list R) :=
  map (fun i => map (fun j => nth (j * rows + i) l 0%R) (seq 0 cols)) (seq 0 rows).
(** The columns of the sparse matrix with given entries. *)
Definition columns_of (n : nat) (l : list (nat * nat * R)) : list (list (nat * R)) :=
  map (fun j => map (fun e => (fst (fst e), snd e)) (filter (fun e => Nat.eqb (snd (fst e)) j) l)) (seq 0 n).

(** A line with a factor of observations: number of random effects, which, number of
    observations and of fixed effects, X, Zt, number of entries of Lambdat, these entries,
    their components of theta, responses, weights. *)
Definition read_glmm : reader (term Rnum) :=
  size <~ whole_number ;; let size := Z.to_nat size in
  items <~ many size whole_number ;;
  nobs <~ whole_number ;; let nobs := Z.to_nat nobs in
  nfixed <~ whole_number ;; let nfixed := Z.to_nat nfixed in
  X <~ many (nobs * nfixed) number ;;
  Zt <~ many (size * nobs) number ;;
  nentries <~ whole_number ;; let nentries := Z.to_nat nentries in
  Lambdat <~ many nentries triplet ;;
  Lind <~ many nentries whole_number ;;
  y <~ many nobs number ;;
  w <~ many nobs number ;;
  give (GLMMTerm Rnum (mkData Rnum items (matrix_of nobs nfixed X) nfixed (matrix_of size nobs Zt) nobs
          (mkSparse Rnum size (columns_of size Lambdat)) Lind y w)).
(** A line with a normal factor: number of random effects, which, mean, precision. *)
Definition read_gaussian : reader (term Rnum) :=
  size <~ whole_number ;; let size := Z.to_nat size in
  items <~ many size whole_number ;;
  mean <~ many size number ;;
  precision <~ many (size * size) number ;;
  give (NormalTerm Rnum items mean (matrix_of size size precision)).

(** Nothing may be left over. *)
Definition all_read {A} (r : reader A) (ws : list string) : option A :=
  match r ws with Some (a, []) => Some a | _ => None end.
Definition read_line (line : string) : option (term Rnum) :=
  match words_of line with
  | w :: ws => if String.eqb w "G" then all_read read_glmm ws else if String.eqb w "N" then all_read read_gaussian ws else None
  | [] => None
  end.
Fixpoint read_all {A} (r : string -> option A) (ls : list string) : option (list A) :=
  match ls with
  | [] => Some []
  | l :: ls' => match r l, read_all r ls' with Some a, Some as' => Some (a :: as') | _, _ => None end
  end.
Definition read_file (file : string) : option (list (term Rnum)) := read_all read_line (lines_of file).

(** A normal distribution: a line with the mean; a line with the number of entries of the
    precision and these entries. *)
Definition read_normal (n : nat) (file : string) : option (list R * list (list (nat * R))) :=
  match split_at (ascii_of_nat 10) file with
  | mean :: precision :: _ =>
      match all_read (many n number) (words_of mean),
            all_read (nentries <~ whole_number ;; l <~ many (Z.to_nat nentries) triplet ;; give (columns_of n l)) (words_of precision) with
      | Some m, Some p => Some (m, p)
      | _, _ => None
      end
  | _ => None
  end.
End Read.

(** A factor with its numbers rounded. *)
Definition rounded (round : R -> R) (t : term Rnum) : term Rnum :=
  match t with
  | GLMMTerm d =>
      GLMMTerm Rnum (mkData Rnum (gd_items _ d) (map (map round) (gd_X _ d)) (gd_numFixed _ d) (map (map round) (gd_Zt _ d)) (gd_numObs _ d)
        (mkSparse Rnum (sp_rows _ (gd_Lambdat _ d)) (map (map (fun e => (fst e, round (snd e)))) (sp_cols _ (gd_Lambdat _ d))))
        (gd_Lind _ d) (map round (gd_response _ d)) (map round (gd_weights _ d)))
  | NormalTerm items mean precision => NormalTerm Rnum items (map round mean) (map (map round) precision)
  end.

(** The whole numbers in the file are below the limits. *)
Definition counts_below (limit limit' : Z) (fr : frame Rnum) : Prop :=
  (Z.of_nat (length (cs_cols (fr_Zt _ fr))) < limit)%Z /\ (Z.of_nat (fr_numFixed _ fr) < limit)%Z /\
  (Z.of_nat (length (fr_Lind _ fr)) < limit)%Z /\ (forall l, In l (fr_Lind _ fr) -> (1 <= l < limit)%Z) /\
  (Z.of_nat (cs_rows (fr_Zt _ fr)) < limit /\ Z.of_nat (cs_rows (fr_Zt _ fr)) < limit')%Z.

(** The real numbers of a factor. *)
Definition numbers_of (t : term Rnum) : list R :=
  match t with
  | GLMMTerm d => (concat (gd_X _ d) ++ concat (gd_Zt _ d) ++ map snd (concat (sp_cols _ (gd_Lambdat _ d))) ++ gd_response _ d ++ gd_weights _ d)%list
  | NormalTerm items mean precision => (mean ++ concat precision)%list
  end.
