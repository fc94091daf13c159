(** What a list of signed factors means: the sum of their log-values at an
    assignment of the items. *)
From Coq Require Import List ZArith Bool.
From Verif Require Import Model.Base Model.Mixed.
Import ListNotations.

(** The double operations form an abelian group (true of the reals; the
    properties that use it say so). *)
Record group_laws (S : sig) : Prop := {
  gl_assoc : forall a b c, dadd S a (dadd S b c) = dadd S (dadd S a b) c;
  gl_comm : forall a b, dadd S a b = dadd S b a;
  gl_zero : forall a, dadd S a (dzero S) = a;
  gl_sub : forall a b, dsub S a b = dadd S a (dopp S b);
  gl_opp : forall a, dadd S a (dopp S a) = dzero S
}.

(** Sum of a list. *)
Definition dsumS (S : sig) (l : list (D S)) : D S := fold_right (dadd S) (dzero S) l.

(** Signed factors: (factor, is it divided by). *)
Definition fval (S : sig) (w : Z -> D S) (f : B S) : D S := beval S f (map w (bscope S f)).
Definition signed (S : sig) (w : Z -> D S) (p : B S * bool) : D S :=
  if snd p then dopp S (fval S w (fst p)) else fval S w (fst p).
Definition total (S : sig) (w : Z -> D S) (l : list (B S * bool)) : D S :=
  dsumS S (map (signed S w) l).
