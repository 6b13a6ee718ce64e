(** Which Go values survive as text: nothing in them that the text of a JSON
    value cannot carry. *)
From Verif Require Import Base Strconv Json SpecJson SpecPrint Gotypes SpecMarshal SpecEncode.

(** - floats: float64 only, and not the negative zero;
    - JSON objects, and what MarshalJSON gives: values that come back exactly (see C01);
    - no field name and no map key that is the reserved member name. *)
Definition writable (w : gval) : Prop :=
  match w with
  | GFloat bit x => bit = 64 /\ fl_ok F64 x = true /\ forall e, x <> FFin true 0 e
  | GJsonObj (Some j) | GJsonPtr (Some j) | GStd j => json_ok j /\ no_reserved_key j /\ text_stable j
  | GMap (Some m) => ~ In jnid_key (map fst m)
  | GStruct fs => ~ In jnid_key (map (fun fv => fi_name (fst fv)) fs)
  | _ => True
  end.

(** All of what one gets to from [v]. *)
Definition all_writable (st : store) (v : gval) : Prop := forall i w, sub st (None, v) (i, w) -> writable w.
