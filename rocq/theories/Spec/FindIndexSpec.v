(** What the indices of a substituted variable should be. *)
From Coq Require Import String List ZArith.
From Verif Require Import Model.Subexpr Model.FindIndices.
Import ListNotations.
Local Open Scope Z_scope.

(** An expression within another. *)
Inductive inside (y : rexpr) : rexpr -> Prop :=
| inside_here : inside y y
| inside_call xs x : In x xs -> inside y x -> inside y (Call xs).

(** var[args]. *)
Definition indexed (a : rexpr) (args : list rexpr) : rexpr := Call (Name "["%string :: a :: args).

(** Nothing is indexed within a subscript, or by two subscripts one after the other. *)
Definition no_nesting (x : rexpr) : Prop :=
  forall a args y, inside (indexed a args) x -> In y (a :: args) -> forall b args', ~ inside (indexed b args') y.

(** The value of an index at one observation, and the values of an index. *)
Inductive label := Level (s : string) | Number (z : Z).
Definition label_at (x : column) (j : nat) : option label :=
  match x with
  | Fac codes levels =>
      match nth_error codes j with
      | Some (Some k) => if 1 <=? k then option_map Level (nth_error levels (Z.to_nat (k - 1))) else None
      | _ => None
      end
  | Num v _ => option_map Number (nth_error v j)
  | Chr _ => None
  end.
Definition labels (ix : index) : list label := match ix with Levels l => map Level l | Numbers v => map Number v end.

(** expand.grid: all tuples, the first component varying fastest. *)
Fixpoint expand_grid {A} (ls : list (list A)) : list (list A) :=
  match ls with
  | [] => [[]]
  | l :: ls' => concat (map (fun t => map (fun x => x :: t) l) (expand_grid ls'))
  end.

Section Numbers.
Variables (subvar : string) (subform subexpr : rexpr) (data : rdata).

(** The number z is used for the subscript i (from 0) of the variable. *)
Definition used (i : nat) (z : Z) : Prop :=
  exists args s v dims, inside (indexed (Name subvar) args) subexpr /\ nth_error args i = Some (Name s) /\ lookup data s = Some (Num v dims) /\ In z v.

(** The names in the thing that is indexed: one name, or those of a call. *)
Definition named (a : rexpr) (s : string) : Prop := a = Name s \/ exists xs, a = Call xs /\ In (Name s) xs.

(** A variable of the data that has subscript i equal to [ind] in the subformula, and
    its extent. *)
Definition covariate (i : nat) (ind : string) (x : column) : Prop :=
  exists a args s, inside (indexed a args) subform /\ nth_error args i = Some (Name ind) /\ named a s /\ lookup data s = Some x.
Definition extent (i : nat) (x : column) (n : Z) : Prop :=
  match x, i with
  | Num v [], O => n = Z.of_nat (length v)
  | Num _ dims, _ => nth_error dims i = Some n
  | Fac c _, O => n = Z.of_nat (length c)
  | Chr v, O => n = Z.of_nat (length v)
  | _, _ => False
  end.

(** Numbers that index the variable start at 1 and are within all covariates; if there
    are no covariates then there are no gaps. *)
Definition numbers_ok (names : list string) : Prop :=
  forall i ind z, nth_error names i = Some ind -> used i z ->
    1 <= z /\ (forall x n, covariate i ind x -> extent i x n -> z <= n) /\
    ((forall x, ~ covariate i ind x) -> forall y, 1 <= y <= z -> used i y).
End Numbers.
