(** What a record of settings should do, independent of the code. *)
From Coq Require Import String List ZArith Reals.
From Verif Require Import Model.Params.
Import ListNotations.
Local Open Scope string_scope.

(** The names that are known. *)
Definition known_family (name : string) : bool := if string_dec name "binomial" then true else false.
Definition known_link (name : string) : bool := if in_dec string_dec name ["logit"; "probit"] then true else false.

(** The value of a setting that an assignment has accepted. *)
Definition theta_of (c : assignment) : option (list R) := match c with SetTheta v => Some v | _ => None end.
Definition beta_of (c : assignment) : option (list R) := match c with SetBeta v => Some v | _ => None end.
Definition family_of (c : assignment) : option string :=
  match c with SetFamily n => if known_family n then Some n else None | _ => None end.
Definition link_of (c : assignment) : option string :=
  match c with SetLink n => if known_link n then Some n else None | _ => None end.
Definition levels_of (c : assignment) : option Z := match c with SetSparseLevels n => Some n | _ => None end.
Definition points_of (c : assignment) : option Z := match c with SetQuadraturePoints n => Some n | _ => None end.
(** Whether it is accepted. *)
Definition accepted (c : assignment) : bool :=
  match c with SetFamily n => known_family n | SetLink n => known_link n | _ => true end.

(** The last value set, or the default. *)
Fixpoint last_set {A} (f : assignment -> option A) (default : A) (cs : list assignment) : A :=
  match cs with
  | [] => default
  | c :: cs' => last_set f (match f c with Some v => v | None => default end) cs'
  end.

(** Numbers of levels and of points for which the constructors are defined. *)
Definition in_range (c : assignment) : Prop :=
  match c with
  | SetSparseLevels n => (n < 0 \/ 1 <= n <= 25)%Z
  | SetQuadraturePoints n => (1 <= n)%Z
  | _ => True
  end.
