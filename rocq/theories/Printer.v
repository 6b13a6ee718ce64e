(** Model of the serialisers: string.go, write.go, and the printing part of
    jsonutils.go. *)
From Verif Require Import Base Strconv SortedMap Json.

(** hexdigits[n] (jsonutils.go:338), 0 <= n < 16 *)
Definition hexdigit_byte (n : Z) : byte := if n <? 10 then zb (48 + n) else zb (87 + n).

(** escapeJsonChar, jsonutils.go:319-358 *)
Definition escape_char (c : byte) : bytes :=
  if beq c """"%byte then ["\"%byte; """"%byte]
  else if beq c "\"%byte then ["\"%byte; "\"%byte]
  else if beq c x08 then ["\"%byte; "b"%byte]
  else if beq c x0c then ["\"%byte; "f"%byte]
  else if beq c x0a then ["\"%byte; "n"%byte]
  else if beq c x0d then ["\"%byte; "r"%byte]
  else if beq c x09 then ["\"%byte; "t"%byte]
  else if bz c <? 32 then
    ["\"%byte; "u"%byte; "0"%byte; "0"%byte; hexdigit_byte (bz c / 16); hexdigit_byte (bz c mod 16)]
  else [c].

(** quoteString, jsonutils.go:360-369 *)
Definition quote_string (s : bytes) : bytes :=
  [""""%byte] ++ flat_map escape_char s ++ [""""%byte].

Definition txt_null := Eval vm_compute in B "null".
Definition txt_true := Eval vm_compute in B "true".
Definition txt_false := Eval vm_compute in B "false".

(** JSONFloat.String, string.go:35-40 (the assignment this.bit = 64 has no
    effect on any later result and is dropped) *)
Definition float_string (f : fl) (bit : Z) : bytes :=
  if bit =? 32 then format_float F32 (to_f32 f) else format_float F64 f.

(** sJSONPointer.String, jsonpointer.go:59-61 *)
Definition ptr_string (n : Z) : bytes := ["<"%byte] ++ format_int n ++ [">"%byte].

(** The buildString methods, write.go:28-81, jsonpointer.go:67-69; String() of
    every kind gives the same text (string.go:23-60). *)
Fixpoint build_string (j : json) : bytes :=
  match j with
  | JNull => txt_null
  | JBool b => if b then txt_true else txt_false
  | JInt z => format_int z
  | JFloat f bit => float_string f bit
  | JString s => quote_string s
  | JPtr n => ptr_string n
  | JArray l =>
      ["["%byte]
        ++ (fix go (idx : nat) (l : list json) : bytes :=
              match l with
              | [] => []
              | v :: l' => (if Nat.ltb 0 idx then [","%byte] else [])
                             ++ build_string v ++ go (S idx) l'
              end) 0%nat l
        ++ ["]"%byte]
  | JDict nid kvs =>
      ["{"%byte]
        ++ (if 0 <? nid then quote_string jnid_key ++ [":"%byte] ++ format_int nid else [])
        ++ (fix go (idx : nat) (kvs : list (bytes * json)) : bytes :=
              match kvs with
              | [] => []
              | (k, v) :: kvs' => (if Nat.ltb 0 idx then [","%byte] else [])
                                    ++ quote_string k ++ [":"%byte]
                                    ++ build_string v ++ go (S idx) kvs'
              end) (if 0 <? nid then 1%nat else 0%nat) kvs
        ++ ["}"%byte]
  end.

(** JSONObject.String() *)
Definition String_ (j : json) : bytes := build_string j.

(** level times two spaces (jsonutils.go:373-375, 578-581, 631-634) *)
Fixpoint tabs (level : nat) : bytes :=
  match level with O => [] | S n => [" "%byte; " "%byte] ++ tabs n end.

(** prettyString: jsonPrettyString (jsonutils.go:371-378) for scalars and
    references, jsonutils.go:575-614 for dicts, 628-650 for arrays. *)
Fixpoint pretty_string (level : nat) (j : json) : bytes :=
  match j with
  | JArray l =>
      tabs level ++ ["["%byte]
        ++ (fix go (idx : nat) (l : list json) : bytes :=
              match l with
              | [] => []
              | v :: l' => (if Nat.ltb 0 idx then [","%byte] else [])
                             ++ [x0a] ++ pretty_string (level + 1) v ++ go (S idx) l'
              end) 0%nat l
        ++ (match l with [] => [] | _ => [x0a] ++ tabs level end)
        ++ ["]"%byte]
  | JDict nid kvs =>
      tabs level ++ ["{"%byte]
        ++ (fix go (idx : nat) (kvs : list (bytes * json)) : bytes :=
              match kvs with
              | [] => []
              | (k, v) :: kvs' =>
                  (if Nat.ltb 0 idx then [","%byte] else [])
                    ++ [x0a] ++ tabs level ++ [" "%byte; " "%byte]
                    ++ [""""%byte] ++ k ++ [""""%byte; ":"%byte]
                    ++ (match v with
                        | JDict _ _ | JArray _ => [x0a] ++ pretty_string (level + 2) v
                        | _ => [" "%byte] ++ build_string v
                        end)
                    ++ go (S idx) kvs'
              end) 0%nat kvs
        ++ (match kvs with [] => [] | _ => [x0a] ++ tabs level end)
        ++ ["}"%byte]
  | _ => tabs level ++ build_string j
  end.

(** PrettyString, jsonutils.go:380-422, 571-573, 624-626, jsonpointer.go:63-65.
    For scalars it is String(), which is prettyString at level 0. *)
Definition PrettyString (j : json) : bytes := pretty_string 0 j.
