(** Vocabulary for pointers that are held in interface{} variables. *)
From Verif Require Import Base Json SpecJson Heap Gotypes Marshal SpecDict Unmarshal.

(** Variables that are pointers themselves, of Go types like *int, **int or *JSONDict. *)
Definition is_pointer (t : gty) : Prop := match t with TPtr _ | TJsonPtr _ => True | _ => False end.

(** No interface{} variable holds a pointer to a pointer variable. *)
Definition no_iface_chains (m : mem) : Prop :=
  forall a b t, nth_error m a = Some (VIface (Some (DynPtr b t))) -> ~ is_pointer t.

(** From the variable [a] of type [t] one gets to the variable [b] of type [u],
    through pointers, and through interface{} variables that hold pointers to
    pointer variables; [n] such interface{} variables are on the way. *)
Inductive leads (m : mem) : nat -> gty -> addr -> gty -> addr -> Prop :=
| leads_here t a : leads m 0 t a t a
| leads_ptr n t a b u c : nth_error m a = Some (VPtr (Some b)) -> leads m n t b u c -> leads m n (TPtr t) a u c
| leads_iface n t a b u c : nth_error m a = Some (VIface (Some (DynPtr b t))) -> is_pointer t -> leads m n t b u c -> leads m (S n) TIface a u c.

(** The interface{} variable [a] leads back to itself. *)
Definition on_cycle (m : mem) (a : addr) : Prop := exists n, leads m (S n) TIface a TIface a.
(** From [a] one gets to an interface{} variable that does. *)
Definition trapped (m : mem) (t : gty) (a : addr) : Prop := exists n b, leads m n t a TIface b /\ on_cycle m b.

(** The end of the way: neither a pointer, nor of a type with UnmarshalJSON, nor
    an interface{} variable with which it goes on. *)
Definition dead_end (m : mem) (t : gty) (a : addr) : Prop :=
  match t with
  | TPtr _ | TJsonPtr _ | TStd | TTime => False
  | TIface => forall b t', nth_error m a = Some (VIface (Some (DynPtr b t'))) -> ~ is_pointer t'
  | _ => True
  end.

(** What an interface{} variable gets from a value that is no dict, null or reference. *)
Definition iface_gets (j : json) (d : dyn) : Prop :=
  match j with
  | JBool b => d = DynBool b
  | JInt z => d = DynInt z
  | JFloat f _ => d = DynFloat f
  | JString s => d = DynString s
  | JArray l => d = DynJsons l
  | _ => False
  end.

(** The value that is read, with these keys, is [jo]: the list or dict itself, or
    what is found in the dict under the keys. *)
Inductive asked : json -> list bytes -> json -> Prop :=
| asked_list l : asked (JArray l) [] (JArray l)
| asked_dict nid kvs : asked (JDict nid kvs) [] (JDict nid kvs)
| asked_string s : asked (JString s) [] (JString s)
| asked_keys nid kvs k ks jo : at_path (JDict nid kvs) (k :: ks) jo -> asked (JDict nid kvs) (k :: ks) jo.

(** Any JSON value but null and references. *)
Definition readable (j : json) : Prop := match j with JNull | JPtr _ => False | _ => True end.

(** Types whose zero value is a single variable, without UnmarshalJSON. *)
Definition plain (t : gty) : Prop := match t with TBool | TInt _ | TFloat _ | TString | TIface | TSlice _ | TMap _ => True | _ => False end.

(** Where such a way begins: interface{} and pointer variables. *)
Definition wayfaring (t : gty) : Prop := match t with TPtr _ | TIface => True | _ => False end.
