(** Vocabulary for properties of JSON values, independent of the functions of
    the model. *)
From Coq Require Import Sorting.Sorted.
From Verif Require Import Base Strconv Json.

(** Keys strictly increasing bytewise (hence distinct). *)
Definition keys_increasing (kvs : list (bytes * json)) : Prop := StronglySorted blt (map fst kvs).

(** A value the Go types can hold: integers are int64, floats are float64
    bit patterns, every dict is a sorted map. *)
Inductive json_ok : json -> Prop :=
| ok_null : json_ok JNull
| ok_bool b : json_ok (JBool b)
| ok_int z : in_int64 z = true -> json_ok (JInt z)
| ok_float f bit : fl_ok F64 f = true -> json_ok (JFloat f bit)
| ok_string s : json_ok (JString s)
| ok_array l : Forall json_ok l -> json_ok (JArray l)
| ok_dict nid kvs : keys_increasing kvs -> Forall (fun kv => json_ok (snd kv)) kvs ->
    in_int64 nid = true -> json_ok (JDict nid kvs)
| ok_ptr n : in_int64 n = true -> json_ok (JPtr n).

(** Sub-values. *)
Inductive subvalue (x : json) : json -> Prop :=
| sub_refl : subvalue x x
| sub_elem v l : In v l -> subvalue x v -> subvalue x (JArray l)
| sub_member k v nid kvs : In (k, v) kvs -> subvalue x v -> subvalue x (JDict nid kvs).

(** Lookup in a member list, first match. *)
Fixpoint lookup {V} (k : bytes) (kvs : list (bytes * V)) : option V :=
  match kvs with
  | [] => None
  | (k', v) :: kvs' => if bseq k k' then Some v else lookup k kvs'
  end.

Definition is_container (j : json) : Prop :=
  match j with JArray _ | JDict _ _ => True | _ => False end.
