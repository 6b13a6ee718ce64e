(** JSON values (jsonutils.go:31-105, jsonpointer.go:28-31).

    Simplifications: values are trees (object identity and sharing are
    modelled in Heap.v and Session.v); a reference node is only its id, i.e.
    an unresolved one as produced by the parser (jsonutils.go:270-274 never
    fills its node field); a nil interface stored inside a container (which
    makes every printer panic) is not representable. *)
From Verif Require Import Base Strconv SortedMap.

Inductive json : Type :=
| JNull                                       (* *JSONValue, JSONNull *)
| JBool (b : bool)                            (* *JSONBool *)
| JInt (z : Z)                                (* *JSONInt, int64 *)
| JFloat (f : fl) (bit : Z)                   (* *JSONFloat: data, bit *)
| JString (s : bytes)                         (* *JSONString *)
| JArray (l : list json)                      (* *JSONArray *)
| JDict (nid : Z) (kvs : list (bytes * json)) (* *JSONDict: nodeId, data *)
| JPtr (nid : Z).                             (* *sJSONPointer *)

(** Induction principle through the nested lists. *)
Section JsonInd.
Variable P : json -> Prop.
Hypothesis Hnull : P JNull.
Hypothesis Hbool : forall b, P (JBool b).
Hypothesis Hint : forall z, P (JInt z).
Hypothesis Hfloat : forall f bit, P (JFloat f bit).
Hypothesis Hstring : forall s, P (JString s).
Hypothesis Harray : forall l, Forall P l -> P (JArray l).
Hypothesis Hdict : forall nid kvs, Forall (fun kv => P (snd kv)) kvs -> P (JDict nid kvs).
Hypothesis Hptr : forall n, P (JPtr n).

Fixpoint json_ind' (j : json) : P j :=
  match j with
  | JNull => Hnull
  | JBool b => Hbool b
  | JInt z => Hint z
  | JFloat f bit => Hfloat f bit
  | JString s => Hstring s
  | JArray l =>
      Harray l ((fix go (l : list json) : Forall P l :=
                   match l with
                   | [] => Forall_nil P
                   | x :: l' => Forall_cons x (json_ind' x) (go l')
                   end) l)
  | JDict nid kvs =>
      Hdict nid kvs ((fix go (kvs : list (bytes * json)) : Forall (fun kv => P (snd kv)) kvs :=
                        match kvs with
                        | [] => Forall_nil _
                        | kv :: kvs' => Forall_cons kv (json_ind' (snd kv)) (go kvs')
                        end) kvs)
  | JPtr n => Hptr n
  end.
End JsonInd.

(** jsonpointer.go:25 *)
Definition jnid_key : bytes := Eval vm_compute in B "___jnid_".
