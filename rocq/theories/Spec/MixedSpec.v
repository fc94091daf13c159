(** Beliefs obtained by any sequence of products, quotients and changes of the
    normal approximation, and what they stand for. *)
From Coq Require Import List ZArith Bool.
From Verif Require Import Model.Base Model.Mixed Spec.BeliefSpec.
Import ListNotations.

Section MS.
Variable S : sig.

Inductive bexp :=
| BItems (items : list Z)                                  (* the unit on some items *)
| BFactor (f : B S)                                        (* one factor *)
| BMul (a b : bexp)                                        (* a *= b *)
| BDiv (a b : bexp)                                        (* a /= b *)
| BNormal (a : bexp) (mean : list (D S)) (prec : list (list (D S)))
| BFix (a : bexp).

(** The program. *)
Fixpoint run (e : bexp) : mixed S :=
  match e with
  | BItems items => mixed_of_items items
  | BFactor f => mixed_of_belief f
  | BMul a b => mixed_mul (run a) (run b)
  | BDiv a b => mixed_div (run a) (run b)
  | BNormal a mean prec => setNormalApprox (run a) mean prec
  | BFix a => fixNormalApprox (run a)
  end.

(** The meaning: items, and signed factors (true = divided by). *)
Fixpoint scope (e : bexp) : list Z :=
  match e with
  | BItems items => items
  | BFactor f => bscope S f
  | BMul a _ | BDiv a _ | BNormal a _ _ | BFix a => scope a
  end.
Fixpoint facs (e : bexp) : list (B S * bool) :=
  match e with
  | BItems _ => []
  | BFactor f => [(f, false)]
  | BMul a b => facs a ++ facs b
  | BDiv a b => facs a ++ map (fun p => (fst p, negb (snd p))) (facs b)
  | BNormal a _ _ | BFix a => facs a
  end.
(** Items are distinct and the second operand lies inside the first. *)
Fixpoint ok (e : bexp) : Prop :=
  match e with
  | BItems items => NoDup items
  | BFactor f => NoDup (bscope S f)
  | BMul a b | BDiv a b => ok a /\ ok b /\ incl (scope b) (scope a)
  | BNormal a _ _ | BFix a => ok a
  end.

(** ** Derivatives *)
Fixpoint assoc {A} (i : Z) (l : list (Z * A)) : option A :=
  match l with
  | [] => None
  | (j, a) :: l' => if Z.eqb j i then Some a else assoc i l'
  end.
Definition or_zero (o : option (D S)) : D S := match o with Some d => d | None => dzero S end.

(** What factor [f] reports for item [i] (zero if [i] is not its item). *)
Definition entry (w : Z -> D S) (i : Z) (f : B S) : D S :=
  or_zero (assoc i (combine (bscope S f) (bderiv S f (map w (bscope S f))))).
Definition entry2 (w : Z -> D S) (i j : Z) (f : B S) : D S :=
  match assoc i (combine (bscope S f) (bderiv2 S f (map w (bscope S f)))) with
  | Some row => or_zero (assoc j (combine (bscope S f) row))
  | None => dzero S
  end.
Definition sgn (v : bool) (d : D S) : D S := if v then dopp S d else d.
Definition gsum (h : B S -> D S) (l : list (B S * bool)) : D S :=
  dsumS S (map (fun p => sgn (snd p) (h (fst p))) l).

(** A factor's derivatives have the right shape. *)
Definition shaped (f : B S) : Prop := forall w,
  let n := length (bscope S f) in
  length (bderiv S f (map w (bscope S f))) = n /\
  length (bderiv2 S f (map w (bscope S f))) = n /\
  (forall row, In row (bderiv2 S f (map w (bscope S f))) -> length row = n).

(** Any notion of derivative [Dr f t d] ("d is the derivative of f at t") that is
    linear and gives zero for constants. *)
Record linear_derivative (Dr : (D S -> D S) -> D S -> D S -> Prop) : Prop := {
  ld_ext : forall f g t d, (forall u, f u = g u) -> Dr f t d -> Dr g t d;
  ld_const : forall c t, Dr (fun _ => c) t (dzero S);
  ld_add : forall f g t d e, Dr f t d -> Dr g t e -> Dr (fun u => dadd S (f u) (g u)) t (dadd S d e);
  ld_opp : forall f t d, Dr f t d -> Dr (fun u => dopp S (f u)) t (dopp S d)
}.
Definition at_item (w : Z -> D S) (v : Z) (u : D S) : Z -> D S :=
  fun x => if Z.eqb x v then u else w x.
End MS.
