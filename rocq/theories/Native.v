(** Model of Interface(): interface.go. *)
From Verif Require Import Base Strconv SortedMap Json Heap Gotypes.

(** Interface(), interface.go:21-58, as the content of an interface{} (a nil
    one for null); lists are []interface{}, dicts map[string]interface{}.  A
    reference that is not linked to a node, as the parser makes them, gives
    nil (jsonpointer.go:107-112, 170-172). *)
Fixpoint native (j : json) : option gval :=
  match j with
  | JNull => None
  | JBool b => Some (GBool b)
  | JInt z => Some (GInt (Signed 64) z)
  | JFloat f _ => Some (GFloat 64 f)
  | JString s => Some (GString s)
  | JArray l => Some (GSlice (Some (map (fun x => GIface (native x)) l)))
  | JDict _ kvs => Some (GMap (Some (map (fun kv => (fst kv, GIface (native (snd kv)))) kvs)))
  | JPtr _ => None
  end.
