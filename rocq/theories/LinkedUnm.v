(** Model of Unmarshal on values with linked references (those that Marshal
    returns): jsonpointer.go:162-164 hands the call to the dict that the
    reference holds, or to JSONNull.  Inside, Get (unmarshal.go:60) and
    unmarshalValue of a reference (jsonpointer.go:75-77) do not
    look at that dict, so the rest is Unmarshal.v. *)
From Verif Require Import Base SortedMap Json Access Heap Gotypes Unmarshal Linked.

Section LinkedUnm.
Context (env : nat -> list (finfo * gty)) (locate : list (finfo * gty) -> bytes -> list nat).
Context (match_us match_eu : bytes -> bool) (to_bool : bytes -> bool)
  (parse_time : bytes -> option bytes) (time_json : bytes -> option (option bytes)) (std_ok : bytes -> bool).
Context (links : Z -> option json).

(** Unmarshal of a JSONObject: jsonpointer.go:162-164, unmarshal.go:41-55.  JSONNull
    is a *JSONValue, so a reference that is not linked zeroes the target. *)
Definition Unmarshal_l (fuel : nat) (m : mem) (t : gty) (a : addr) (j : json) (keys : list bytes) : utop :=
  Unmarshal env locate match_us match_eu to_bool parse_time time_json std_ok fuel m t a (recv links j) keys.
End LinkedUnm.
