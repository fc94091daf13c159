(** Which random effects of an observation are used by sequential reduction if some
    observations have none. *)
From Coq Require Import List Reals ZArith Sorted Bool.
From Verif Require Import Model.Base Model.Family Model.GLMM Model.SplitFrame Spec.Numbers Spec.GLMMSpec Spec.SplitSpec.
Import ListNotations.

(** Observation o has a random effect. *)
Definition has_effect (fr : frame Rnum) (o : nat) : Prop := exists r, depends (fr_Lambdat _ fr) (fr_Zt _ fr) o r.

(** The observations with random effects, in increasing order. *)
Definition with_effects (fr : frame Rnum) (l : list nat) : Prop :=
  StronglySorted lt l /\ forall o, In o l <-> (o < length (cs_cols (fr_Zt _ fr)))%nat /\ has_effect fr o.

(** Every random effect of observation j is one of observation s. *)
Definition within (fr : frame Rnum) (j s : nat) : Prop :=
  forall r, depends (fr_Lambdat _ fr) (fr_Zt _ fr) j r -> depends (fr_Lambdat _ fr) (fr_Zt _ fr) s r.

(** If observation o is taken for the o-th of the observations with random effects: the
    first observation that has all the random effects of that one.  (If there is no o-th
    one, any will do.) *)
Definition taken_from (fr : frame Rnum) (l : list nat) (o s : nat) : Prop :=
  let suits s := forall j, nth_error l o = Some j -> within fr j s in
  In s l /\ suits s /\ forall s', In s' l -> suits s' -> (s <= s')%nat.

(** Lambdat is closed: it is a block diagonal matrix with triangular blocks. *)
Definition closed (fr : frame Rnum) : Prop := forall r k j,
  stored (fr_Lambdat _ fr) r k -> stored (fr_Lambdat _ fr) k j -> stored (fr_Lambdat _ fr) r j.

(** [depends], computed. *)
Definition dependsb (fr : frame Rnum) (o r : nat) : bool :=
  existsb (fun e => existsb (fun l => Nat.eqb (fst l) r) (nth (fst e) (cs_cols (fr_Lambdat _ fr)) [])) (nth o (cs_cols (fr_Zt _ fr)) []).

(** The frame in which observation o only has those entries of Zt that belong to random
    effects of observation src o. *)
Definition keep (fr : frame Rnum) (src : nat -> nat) : frame Rnum :=
  mkFrame Rnum (fr_X _ fr) (fr_numFixed _ fr)
    (mkCsc (cs_rows (fr_Zt _ fr)) (map (fun o => filter (fun e => dependsb fr (src o) (fst e)) (nth o (cs_cols (fr_Zt _ fr)) []))
                                       (seq 0 (length (cs_cols (fr_Zt _ fr))))))
    (fr_Lambdat _ fr) (fr_Lind _ fr) (fr_response _ fr) (fr_weights _ fr).

(** The observations without random effects are the last ones. *)
Definition empty_last (fr : frame Rnum) : Prop :=
  forall o o', (o < o' < length (cs_cols (fr_Zt _ fr)))%nat -> has_effect fr o' -> has_effect fr o.
