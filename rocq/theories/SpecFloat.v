(** Specification of IEEE 754 rounding, independent of the model's rounding
    function: values are rationals, "correctly rounded" is "canonical, at
    least as near as every other canonical number, even significand on ties". *)
From Coq Require Import QArith Qabs.
From Verif Require Import Base Strconv.
Open Scope Q_scope.

(** The rational m * 2^e. *)
Definition fq (m e : Z) : Q := inject_Z m * Qpower 2 e.

(** The rational c * 10^j. *)
Definition decq (c j : Z) : Q := inject_Z c * Qpower 10 j.

(** (m, e) is a number of the format F and the correct rounding of x >= 0. *)
Definition correctly_rounded (F : fformat) (x : Q) (m e : Z) : Prop :=
  canon F m e = true /\
  (forall m' e', canon F m' e' = true ->
     Qabs (x - fq m e) <= Qabs (x - fq m' e')
     /\ (Qabs (x - fq m e) == Qabs (x - fq m' e') -> fq m e == fq m' e' \/ Z.even m = true)).

(** x is too large for F: it rounds up beyond the largest number. *)
Definition overflows (F : fformat) (x : Q) : Prop :=
  (inject_Z (2 ^ prec F) - (1 # 2)) * Qpower 2 (emax F) <= x.

(** x >= 0, negated if [neg], as a number of the format: zero, the correct
    rounding, or an infinity. *)
Definition rounds (F : fformat) (neg : bool) (x : Q) (f : fl) : Prop :=
  (x == 0 /\ f = FFin neg 0 (emin F))
  \/ (0 < x /\ overflows F x /\ f = FInf neg)
  \/ (0 < x /\ ~ overflows F x /\ exists m e, f = FFin neg m e /\ correctly_rounded F x m e).

(** The same number, as a float64. *)
Definition widens (f g : fl) : Prop :=
  match f with
  | FNaN => g = FNaN
  | FInf neg => g = FInf neg
  | FFin neg m e => exists m' e', g = FFin neg m' e' /\ canon F64 m' e' = true /\ fq m' e' == fq m e
  end.

(** The float64 g is the float64 f converted to float32 and back. *)
Definition narrows (f g : fl) : Prop :=
  match f with
  | FNaN => g = FNaN
  | FInf neg => g = FInf neg
  | FFin neg m e => exists h, rounds F32 neg (fq m e) h /\ widens h g
  end.

(** A float64 that is the value of a float32. *)
Definition single (f : fl) : Prop :=
  match f with
  | FFin neg m e => canon F64 m e = true /\ exists m' e', canon F32 m' e' = true /\ fq m' e' == fq m e
  | _ => True
  end.
