(** A small concrete signature used only to show that hypotheses of theorems are
    met by non-trivial cases.  Log-values are integers; a factor is a scope and
    a function; integrating an argument out is the maximum over {0, 1}; a normal is
    just its dimension. *)
From Coq Require Import List ZArith Bool.
From Verif Require Import Model.Base Model.Mixed Spec.BeliefSpec.
Import ListNotations.
Local Open Scope Z_scope.

Fixpoint insert_at {A} (x : A) (k : nat) (l : list A) : list A :=
  match k, l with
  | O, _ => x :: l
  | S k', y :: l' => y :: insert_at x k' l'
  | S _, [] => [x]
  end.

Definition toy : sig :=
  mkSig Z 0 Z.add Z.sub Z.opp (fun _ => true)
    (list Z * (list Z -> Z)) fst snd (fun _ _ => []) (fun _ _ => [])
    nat (fun mean _ => length mean) (fun n _ _ => n) (fun n _ _ => n) (fun _ l => length l)
    (fun n => repeat 0 n) (fun _ _ => 0)
    (fun f _ _ k _ items =>
       Ok (items, fun x => match f (insert_at 0 k x), f (insert_at 1 k x) with
                           | Ok a, Ok b => Z.max a b
                           | _, _ => 0 end)).

Lemma toy_laws : group_laws toy.
Proof.
  split; simpl; intros.
  - apply Z.add_assoc.
  - apply Z.add_comm.
  - apply Z.add_0_r.
  - reflexivity.
  - apply Z.add_opp_diag_r.
Qed.

Definition factor (scope : list Z) (f : list Z -> Z) : B toy := (scope, f).
Definition zsum (l : list Z) : Z := fold_right Z.add 0 l.

(** A cycle of length four with a pendant: 1-2-3-4-1, 4-9; a repeated scope. *)
Definition cycle : list (B toy) :=
  [ factor [1; 2] zsum; factor [3; 2] zsum; factor [3; 4] (fun l => 2 * zsum l);
    factor [4; 1] zsum; factor [9; 4] zsum; factor [1; 2] (fun l => 3 * zsum l);
    factor [] (fun _ => 7) ].

(** [P] holds of the value and there is one. *)
Definition on_ok {A} (o : outcome A) (P : A -> Prop) : Prop :=
  match o with Ok a => P a | _ => False end.
