(** What it means for two values to have the same content, and for a value
    to be zero.  Does not mention Equals or IsZero. *)
From Verif Require Import Base Strconv Json SpecJson.

(** The same number: the two zeros are, NaN is no number. *)
Inductive same_number : fl -> fl -> Prop :=
| sn_same n m e : same_number (FFin n m e) (FFin n m e)
| sn_zero n1 e1 n2 e2 : same_number (FFin n1 0 e1) (FFin n2 0 e2)
| sn_inf n : same_number (FInf n) (FInf n).

Inductive same_content : json -> json -> Prop :=
| sc_null : same_content JNull JNull
| sc_bool b : same_content (JBool b) (JBool b)
| sc_int z : same_content (JInt z) (JInt z)
| sc_float f g bit bit' : same_number f g -> same_content (JFloat f bit) (JFloat g bit')
| sc_string s : same_content (JString s) (JString s)
| sc_array l l' : Forall2 same_content l l' -> same_content (JArray l) (JArray l')
| sc_dict nid nid' kvs kvs' :
    (forall k, lookup k kvs = None <-> lookup k kvs' = None) ->
    (forall k v w, lookup k kvs = Some v -> lookup k kvs' = Some w -> same_content v w) ->
    same_content (JDict nid kvs) (JDict nid' kvs').

(** No unresolved reference inside. *)
Definition no_reference (j : json) : Prop := forall n, ~ subvalue (JPtr n) j.
(** No NaN inside. *)
Definition no_nan (j : json) : Prop := forall bit, ~ subvalue (JFloat FNaN bit) j.
