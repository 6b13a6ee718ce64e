(** What reading back a serialised value may legitimately change, and the
    side conditions of the round-trip theorems.  Independent of the printer
    and the parser. *)
From Coq Require Import QArith.
From Verif Require Import Base Strconv SpecFloat Json SpecJson.
Open Scope Z_scope.

(** The positive float m * 2^e is an integer below 2^63. *)
Definition small_integral (m e : Z) : Prop :=
  (exists n : Z, (fq m e == inject_Z n)%Q) /\ (fq m e < inject_Z (2 ^ 63))%Q.

(** v' is v up to: the bit-width tag of floats is forgotten, a float whose
    value is an integer below 2^63 is an integer (one which has that float as
    its correct rounding), a non-positive node id is no node id. *)
Inductive reads_as : json -> json -> Prop :=
| ra_null : reads_as JNull JNull
| ra_bool b : reads_as (JBool b) (JBool b)
| ra_int z : reads_as (JInt z) (JInt z)
| ra_string s : reads_as (JString s) (JString s)
| ra_ptr n : reads_as (JPtr n) (JPtr n)
| ra_nan bit : reads_as (JFloat FNaN bit) (JFloat FNaN 0)
| ra_inf neg bit : reads_as (JFloat (FInf neg) bit) (JFloat (FInf neg) 0)
| ra_float neg m e bit : 0 < m -> ~ small_integral m e ->
    reads_as (JFloat (FFin neg m e) bit) (JFloat (FFin neg m e) 0)
| ra_float_zero neg e bit : reads_as (JFloat (FFin neg 0 e) bit) (JInt 0)
| ra_float_int neg m e bit z : 0 < m -> small_integral m e -> 0 < z < 2 ^ 63 ->
    correctly_rounded F64 (inject_Z z) m e ->
    reads_as (JFloat (FFin neg m e) bit) (JInt (if neg then - z else z))
| ra_array l l' : Forall2 reads_as l l' -> reads_as (JArray l) (JArray l')
| ra_dict nid kvs kvs' : Forall2 (fun a b => fst a = fst b /\ reads_as (snd a) (snd b)) kvs kvs' ->
    reads_as (JDict nid kvs) (JDict (Z.max 0 nid) kvs').

(** No float inside is tagged as 32 bit. *)
Definition only_float64 (v : json) : Prop := forall f bit, subvalue (JFloat f bit) v -> bit <> 32.

(** No dict inside uses the reserved member name. *)
Definition no_reserved_key (v : json) : Prop :=
  forall nid kvs, subvalue (JDict nid kvs) v -> ~ In jnid_key (map fst kvs).

(** No float at all. *)
Definition no_float (v : json) : Prop := forall f bit, ~ subvalue (JFloat f bit) v.

(** No NaN or infinity, no reference, no node id: a plain JSON tree. *)
Definition plain_json (v : json) : Prop :=
  (forall f bit, subvalue (JFloat f bit) v -> exists neg m e, f = FFin neg m e)
  /\ (forall n, ~ subvalue (JPtr n) v)
  /\ (forall nid kvs, subvalue (JDict nid kvs) v -> nid <= 0).

(** The positive node ids, innermost and leftmost first. *)
Fixpoint node_ids (v : json) : list Z :=
  match v with
  | JArray l => flat_map node_ids l
  | JDict nid kvs => flat_map (fun kv => node_ids (snd kv)) kvs ++ (if 0 <? nid then [nid] else [])
  | _ => []
  end.

Definition distinct_ids (v : json) : Prop := NoDup (node_ids v).

(** The value without its node ids (PrettyString does not write them). *)
Fixpoint strip_ids (v : json) : json :=
  match v with
  | JArray l => JArray (map strip_ids l)
  | JDict _ kvs => JDict 0 (map (fun kv => (fst kv, strip_ids (snd kv))) kvs)
  | _ => v
  end.

(** Keys that can be written between quotes as they are. *)
Definition plain_keys (v : json) : Prop :=
  forall nid kvs k, subvalue (JDict nid kvs) v -> In k (map fst kvs) ->
    ~ In """"%byte k /\ ~ In "\"%byte k.

(** All side conditions of the round trip. *)
Definition printable (v : json) : Prop :=
  json_ok v /\ only_float64 v /\ no_reserved_key v /\ distinct_ids v.

(** Values on which the round trip is the identity: floats carry no bit-width
    tag and none is an integer below 2^63 (zero included), node ids are not
    negative. *)
Definition text_stable (v : json) : Prop :=
  (forall f bit, subvalue (JFloat f bit) v -> bit = 0 /\
     forall neg m e, f = FFin neg m e -> 0 < m /\ ~ small_integral m e)
  /\ (forall nid kvs, subvalue (JDict nid kvs) v -> 0 <= nid).
