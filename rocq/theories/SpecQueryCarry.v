(** Which Go values survive in a query string, where all scalars are text. *)
From Verif Require Import Base Strconv Json SpecJson Printer Gotypes SpecMarshal SpecEncode.

Section Carry.
(** The regular expressions of regutils (currency.go) and utils.ToBool. *)
Context (match_us match_eu : bytes -> bool) (to_bool : bytes -> bool).

(** - booleans if their words are understood;
    - unsigned integers below 2^63 (larger ones are negative in JSON);
    - floats: float64 only, whose text is not taken for an amount in European
      notation; and those with the string option;
    - JSON objects and what MarshalJSON gives: strings only, and booleans for
      variables of type *JSONBool;
    - everything else, such as all signed integers. *)
Definition carried (i : option finfo) (w : gval) : Prop :=
  match w with
  | GBool b => to_bool (if b then txt_true else txt_false) = b
  | GInt (Unsigned _) z => z < 2 ^ 63
  | GFloat bit x => forced i = true \/
      bit = 64 /\ fl_ok F64 x = true /\ (match_us (float_string x 64) = true \/ match_eu (float_string x 64) = false)
  | GJsonObj (Some j) | GStd j => exists s, j = JString s
  | GJsonPtr (Some j) => (exists s, j = JString s) \/ (exists b, j = JBool b)
  | _ => True
  end.

(** All of what one gets to from [v]. *)
Definition all_carried (st : store) (v : gval) : Prop := forall i w, sub st (None, v) (i, w) -> carried i w.
End Carry.
