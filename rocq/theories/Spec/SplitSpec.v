(** What the factors of a model frame should be, independent of how the frame is
    split. *)
From Coq Require Import List Reals ZArith Lia.
From Verif Require Import Model.Base Model.Family Model.GLMM Model.SplitFrame Spec.Numbers Spec.GLMMSpec.
Import ListNotations.
Local Open Scope R_scope.

(** A place of a sparse matrix that is stored. *)
Definition stored {A} (m : csc A) (r c : nat) : Prop := exists x, In (r, x) (nth c (cs_cols m) []).

(** Observation o has a term with random effect r, as far as the stored places tell. *)
Definition depends {A} (Lambdat Zt : csc A) (o r : nat) : Prop := exists k, stored Zt k o /\ stored Lambdat r k.

(** A frame of the form made by lme4: sizes fit, and the diagonal of Lambdat is
    stored. *)
Record regular (fr : frame Rnum) : Prop := {
  re_X : length (fr_X _ fr) = length (cs_cols (fr_Zt _ fr));
  re_Xrow : forall row, In row (fr_X _ fr) -> length row = fr_numFixed _ fr;
  re_Zt : forall r c, stored (fr_Zt _ fr) r c -> (r < cs_rows (fr_Zt _ fr))%nat;
  re_Lrows : cs_rows (fr_Lambdat _ fr) = cs_rows (fr_Zt _ fr);
  re_Lcols : length (cs_cols (fr_Lambdat _ fr)) = cs_rows (fr_Zt _ fr);
  re_Lambdat : forall r c, stored (fr_Lambdat _ fr) r c -> (r < cs_rows (fr_Zt _ fr))%nat;
  re_diag : forall k, (k < cs_rows (fr_Zt _ fr))%nat -> stored (fr_Lambdat _ fr) k k;
  re_Lind : length (fr_Lind _ fr) = length (concat (cs_cols (fr_Lambdat _ fr)));
  re_y : length (response_vector _ (fr_response _ fr)) = length (cs_cols (fr_Zt _ fr));
  re_w : forall w, fr_weights _ fr = Some w -> length w = length (cs_cols (fr_Zt _ fr))
}.

(** Every observation has some random effect. *)
Definition no_empty (fr : frame Rnum) : Prop :=
  forall o, (o < length (cs_cols (fr_Zt _ fr)))%nat -> exists r, depends (fr_Lambdat _ fr) (fr_Zt _ fr) o r.

(** The entry in row r, column c of a sparse matrix. *)
Definition entry (m : csc R) (r c : nat) : R :=
  fold_right Rplus 0 (map snd (filter (fun e => Nat.eqb (fst e) r) (nth c (cs_cols m) []))).

(** All the observations as one factor of all the random effects. *)
Definition whole (fr : frame Rnum) : glmm_data Rnum :=
  let n := length (cs_cols (fr_Zt _ fr)) in let q := cs_rows (fr_Zt _ fr) in
  mkData Rnum (map Z.of_nat (seq 0 q)) (fr_X _ fr) (fr_numFixed _ fr)
    (map (fun r => map (entry (fr_Zt _ fr) r) (seq 0 n)) (seq 0 q)) n
    (mkSparse Rnum q (cs_cols (fr_Lambdat _ fr))) (map (fun l => (l - 1)%Z) (fr_Lind _ fr))
    (response_vector _ (fr_response _ fr))
    (match fr_weights _ fr with Some w => w | None => repeat 1 n end).

(** The components of u belonging to a list of items. *)
Definition restrict (u : list R) (items : list Z) : list R := map (fun i => nth (Z.to_nat i) u 0) items.
