(** Vocabulary for the query string properties. *)
From Coq Require Import Sorting.Sorted.
From Verif Require Import Base Strconv Json SpecJson Printer.

(** What a query string can carry of a value: all scalars become strings
    (null the empty one), node ids are lost. *)
Fixpoint as_text (j : json) : json :=
  match j with
  | JNull => JString []
  | JString s => JString s
  | JArray l => JArray (map as_text l)
  | JDict _ kvs => JDict 0 (map (fun kv => (fst kv, as_text (snd kv))) kvs)
  | _ => JString (String_ j)
  end.

(** Strings only: these values survive as they are. *)
Inductive all_strings : json -> Prop :=
| as_str s : all_strings (JString s)
| as_arr l : Forall all_strings l -> all_strings (JArray l)
| as_dict kvs : Forall (fun kv => all_strings (snd kv)) kvs -> all_strings (JDict 0 kvs).

(** How deep the nearest scalar is. *)
Definition min_list (l : list nat) : nat :=
  match l with [] => O | x :: l' => fold_right Nat.min x l' end.
Fixpoint leaf_depth (j : json) : nat :=
  match j with
  | JArray l => S (min_list (map leaf_depth l))
  | JDict _ kvs => S (min_list (map (fun kv => leaf_depth (snd kv)) kvs))
  | _ => O
  end.

(** A member name that a dotted key can carry: no dot, and if strconv takes
    it for an int64 then it is the text of that number (so not 01 or +1). *)
Definition plain_key (k : bytes) : Prop :=
  ~ In "."%byte k /\ (forall n, parse_int k = Some n -> format_int n = k).

Definition is_scalar (j : json) : Prop :=
  match j with JArray _ | JDict _ _ | JPtr _ => False | _ => True end.

(** Values below a member of a dict that a query string can carry: containers
    are not empty, no member of a nested dict is named 0 (that means an array)
    and the elements of an array get no shallower from left to right. *)
Inductive query_value : json -> Prop :=
| qv_scalar j : is_scalar j -> query_value j
| qv_array l : l <> [] -> Forall query_value l -> StronglySorted le (map leaf_depth l) ->
    Z.of_nat (length l) <= int64_max -> query_value (JArray l)
| qv_dict nid kvs : kvs <> [] -> keys_increasing kvs ->
    Forall (fun kv => plain_key (fst kv) /\ fst kv <> ["0"%byte] /\ query_value (snd kv)) kvs ->
    query_value (JDict nid kvs).

(** The whole dict: it may be empty and may have a member named 0, but none
    with the empty name. *)
Definition query_dict (kvs : list (bytes * json)) : Prop :=
  keys_increasing kvs /\
  Forall (fun kv => plain_key (fst kv) /\ fst kv <> [] /\ query_value (snd kv)) kvs.
