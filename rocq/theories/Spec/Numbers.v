(** The two readings of [double] used for src/Family.cpp and below: exact real
    numbers, and IEEE-754 binary64 with the C library left open. *)
From Coq Require Import Reals ZArith Bool.
From Coquelicot Require Import Coquelicot.
From Verif Require Import Model.Family.
Local Open Scope R_scope.

(** Density and distribution function of the standard normal. *)
Definition normal_pdf (x : R) : R := exp (- (x ^ 2) / 2) / sqrt (2 * PI).
Definition normal_cdf (x : R) : R := 1 / 2 + RInt normal_pdf 0 x.

Definition Rltb (x y : R) : bool := if Rlt_dec x y then true else false.

Definition Reqb (x y : R) : bool := if Req_EM_T x y then true else false.

Definition Rnum : num :=
  mkNum R IZR (1 / 100000000) Rplus Rminus Rmult Rdiv Ropp Rltb Reqb exp ln powerRZ
        normal_cdf normal_pdf.

Local Close Scope R_scope.
From Coq Require Import Floats.

(** Doubles.  Only addition, subtraction, multiplication, division, negation and
    comparison are fixed by IEEE-754; the functions of the C library and of
    boost are parameters. *)
Definition float_of_Z (z : Z) : float :=
  match z with
  | Z0 => zero
  | Zpos _ => of_uint63 (Uint63.of_Z z)
  | Zneg p => PrimFloat.opp (of_uint63 (Uint63.of_Z (Zpos p)))
  end.
Definition eps64 : float := 0x1.5798ee2308c3ap-27%float.
Definition Fnum (fexp flog : float -> float) (fpow : float -> Z -> float)
                (fcdf fpdf : float -> float) : num :=
  mkNum float float_of_Z eps64 PrimFloat.add PrimFloat.sub PrimFloat.mul PrimFloat.div
        PrimFloat.opp PrimFloat.ltb PrimFloat.eqb fexp flog fpow fcdf fpdf.
