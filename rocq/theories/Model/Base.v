(** Outcomes of C++ code: a value, a thrown exception, undefined behaviour, or
    exhausted fuel of a recursion whose termination is a theorem. *)
From Coq Require Import List ZArith Bool.
Import ListNotations.

Inductive exn : Type :=
| OutOfRange   (* std::out_of_range, from .at() *)
| DomainError  (* std::domain_error *)
| RuntimeError (* std::runtime_error *).

Inductive outcome (A : Type) : Type :=
| Ok (a : A)
| Throw (e : exn)
| UB
| NoFuel.
Arguments Ok {A} _.
Arguments Throw {A} _.
Arguments UB {A}.
Arguments NoFuel {A}.

Definition bind {A B} (m : outcome A) (f : A -> outcome B) : outcome B :=
  match m with
  | Ok a => f a
  | Throw e => Throw e
  | UB => UB
  | NoFuel => NoFuel
  end.

Declare Scope outcome_scope.
Delimit Scope outcome_scope with outcome.
Notation "x <- m ;; k" := (bind m (fun x => k))
  (at level 61, m at next level, right associativity) : outcome_scope.
Open Scope outcome_scope.

(** [v.at(i)]: bounds-checked access. *)
Definition vec_at {A} (l : list A) (i : nat) : outcome A :=
  match nth_error l i with Some x => Ok x | None => Throw OutOfRange end.

(** [v[i]] / Eigen [v(i)]: unchecked access. *)
Definition vec_get {A} (l : list A) (i : nat) : outcome A :=
  match nth_error l i with Some x => Ok x | None => UB end.

(** In-place assignment of element [i] (used only after an access of the same
    element, so the index is known to be in range). *)
Fixpoint upd {A} (l : list A) (i : nat) (x : A) : list A :=
  match l, i with
  | [], _ => []
  | _ :: l', O => x :: l'
  | y :: l', S i' => y :: upd l' i' x
  end.

Fixpoint mapM {A B} (f : A -> outcome B) (l : list A) : outcome (list B) :=
  match l with
  | [] => Ok []
  | x :: l' => y <- f x ;; ys <- mapM f l' ;; Ok (y :: ys)
  end.

Fixpoint foldM {A S} (f : S -> A -> outcome S) (l : list A) (s : S) : outcome S :=
  match l with
  | [] => Ok s
  | x :: l' => s' <- f s x ;; foldM f l' s'
  end.
