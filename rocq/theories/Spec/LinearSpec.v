(** Linear expressions in a substituted variable. *)
From Coq Require Import String List Reals Bool Arith ZArith.
From Verif Require Import Model.Base Model.Subexpr Spec.IndexSpec Spec.SubexprSpec.
Import ListNotations.
Local Open Scope string_scope.
Local Open Scope R_scope.

(** The element of an array at a tuple of indices. *)
Definition element (dims : list Z) (eta : list R) (t : list Z) : R :=
  match find_row t (grid dims) with Some k => nth k eta 0 | None => 0 end.
(** The multiplier of row k: a single number, or one for each row. *)
Definition multiplier (v : list R) (k : nat) : R := match v with [c] => c | _ => nth k v 0 end.
Definition by_rows (n : nat) (f : nat -> R) : list R := map f (seq 0 n).

Section Linear.
Variable other : string -> list (list R) -> outcome (list R).
Variable data : env.
Variable subvar : string.
Variable dims : list Z.
(** Whether the subformula has random effects, and its number of fixed effects. *)
Variable random : bool.
Variable p : nat.

(** An expression without the variable and without numbers, with this value. *)
Definition aside (c : rexpr) (v : value) : Prop := occurs subvar c = false /\ has_number c = false /\ eval other data c = Ok v.
(** A vector with which n rows can be multiplied. *)
Definition scales (n : nat) (v : list R) : Prop := length v = 1%nat \/ random = false /\ length v = n /\ (0 < n)%nat /\ (0 < p)%nat.

(** [linear e n g]: e has n rows and is the function g of the elements of the variable. *)
Inductive linear : rexpr -> nat -> (list R -> list R) -> Prop :=
| linear_variable : forall names is n, names <> [] -> length names = length dims -> ~ In subvar names ->
    Forall2 (fun s i => exists v, get data s = Ok v /\ as_index v = Ok i) names is -> List.Forall (fun i => length i = n) is -> List.Forall (within dims) (tuples n is) ->
    linear (Call (Name "[" :: Name subvar :: map Name names)) n (fun eta => map (element dims eta) (tuples n is))
| linear_subset : forall e m g c v i, linear e m g -> aside c v -> as_index v = Ok i -> List.Forall (fun k => (1 <= k <= Z.of_nat m)%Z) i ->
    linear (Call [Name "["; e; c]) (length i) (fun eta => map (fun k => nth (Z.to_nat (k - 1)) (g eta) 0) i)
| linear_plus : forall a b n f g, linear a n f -> linear b n g ->
    linear (Call [Name "+"; a; b]) n (fun eta => by_rows n (fun k => nth k (f eta) 0 + nth k (g eta) 0))
| linear_minus : forall a b n f g, linear a n f -> linear b n g ->
    linear (Call [Name "-"; a; b]) n (fun eta => by_rows n (fun k => nth k (f eta) 0 - nth k (g eta) 0))
| linear_times_left : forall c e v n f, aside c (Vec v) -> scales n v -> linear e n f ->
    linear (Call [Name "*"; c; e]) n (fun eta => by_rows n (fun k => multiplier v k * nth k (f eta) 0))
| linear_times_right : forall c e v n f, aside c (Vec v) -> scales n v -> linear e n f ->
    linear (Call [Name "*"; e; c]) n (fun eta => by_rows n (fun k => nth k (f eta) 0 * multiplier v k))
| linear_over : forall c e v n f, aside c (Vec v) -> scales n v -> List.Forall (fun x => x <> 0) v -> linear e n f ->
    linear (Call [Name "/"; e; c]) n (fun eta => by_rows n (fun k => nth k (f eta) 0 / multiplier v k)).

(** The form of such expressions: subscripts of the variable, sums and differences, products
    with something else, and quotients, and nothing else around the variable. *)
Inductive form : rexpr -> Prop :=
| form_variable : form (Name subvar)
| form_subset : forall a c, form a -> occurs subvar c = false -> form (Call [Name "["; a; c])
| form_subsets : forall a names, form a -> ~ In subvar names -> form (Call (Name "[" :: a :: map Name names))
| form_plus : forall a b, form a -> form b -> form (Call [Name "+"; a; b])
| form_minus : forall a b, form a -> form b -> form (Call [Name "-"; a; b])
| form_times_left : forall c a, occurs subvar c = false -> form a -> form (Call [Name "*"; c; a])
| form_times_right : forall a c, form a -> occurs subvar c = false -> form (Call [Name "*"; a; c])
| form_over : forall a c, form a -> occurs subvar c = false -> form (Call [Name "/"; a; c]).
End Linear.
