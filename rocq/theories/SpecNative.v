(** What is left of a value when it has been turned into native Go values
    (bool, int64, float64, string, []interface{}, map[string]interface{}, nil)
    and marshalled again. *)
From Verif Require Import Base Strconv Json.

(** No node ids, no unresolved references, all floats are float64. *)
Fixpoint plain_json (j : json) : json :=
  match j with
  | JFloat f _ => JFloat f 64
  | JArray l => JArray (map plain_json l)
  | JDict _ kvs => JDict 0 (map (fun kv => (fst kv, plain_json (snd kv))) kvs)
  | JPtr _ => JNull
  | _ => j
  end.

Definition is_null (j : json) : bool := match j with JNull => true | _ => false end.

(** Without the nulls inside arrays and dicts. *)
Fixpoint without_nulls (j : json) : json :=
  match j with
  | JArray l => JArray (filter (fun x => negb (is_null x)) (map without_nulls l))
  | JDict nid kvs => JDict nid (filter (fun kv => negb (is_null (snd kv))) (map (fun kv => (fst kv, without_nulls (snd kv))) kvs))
  | _ => j
  end.
