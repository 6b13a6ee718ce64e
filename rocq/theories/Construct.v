(** Model of the constructors and of the accessors without keys: access.go:32-74,
    values.go, length.go, size.go, compond.go, utils.go:24-60, 114-117, and
    QueryBoolean, querystring.go:180-191. *)
From Verif Require Import Base Strconv SortedMap Json Printer Access Unmarshal.

(** NewDict, access.go:32-38 *)
Definition NewDict (objs : list (bytes * json)) : json :=
  JDict 0 (fold_left (fun d o => dict_set d (fst o) (snd o)) objs []).

(** NewArray, access.go:40-46 *)
Definition NewArray (objs : list json) : json := JArray (fold_left (fun d o => d ++ [o]) objs []).

(** NewString, NewInt, NewFloat and NewFloat64, NewFloat32, NewBool,
    access.go:48-74 *)
Definition NewString (s : bytes) : json := JString s.
Definition NewInt (z : Z) : json := JInt z.
Definition NewFloat64 (f : fl) : json := JFloat f 64.
Definition NewFloat32 (f : fl) : json := JFloat (to_f64 f) 32.
Definition NewBool (b : bool) : json := if b then JBool true else JBool false.

(** Value of JSONDict and JSONArray, values.go:38-47 *)
Definition dict_value (j : json) : list (bytes * json) := match GetMap j [] with ROk m => m | RErr _ => [] end.
Definition array_value (j : json) : list json := match GetArray j [] with ROk l => l | RErr _ => [] end.

(** Length of JSONString, JSONDict, JSONArray (length.go:17-27), Size of
    JSONDict, JSONArray (size.go:17-23); the others do not have them *)
Definition Length (j : json) : option nat :=
  match j with
  | JString s => Some (length s)
  | JDict _ kvs => Some (length kvs)
  | JArray l => Some (length l)
  | _ => None
  end.
Definition Size (j : json) : option nat :=
  match j with
  | JDict _ kvs => Some (length kvs)
  | JArray l => Some (length l)
  | _ => None
  end.

(** NewStringArray, utils.go:24-30 *)
Definition NewStringArray (arr : list bytes) : json :=
  fold_left (fun ret a => match ret with JArray l => JArray (array_add l [NewString a]) | _ => ret end) arr (NewArray []).

(** GetStringArray, utils.go:54-60 *)
Definition GetStringArray (o : json) (keys : list bytes) : res (list bytes) :=
  rbind (GetArray o keys) (fun arr => ROk (string_array arr)).

(** QueryBoolean of a query that is not nil, querystring.go:180-191; [to_bool]
    is utils.ToBool, which is not in /repo. *)
Definition QueryBoolean (to_bool : bytes -> bool) (query : json) (key : bytes) (def_val : bool) : bool :=
  match Get query [key] with
  | ROk v => match GetString v [] with ROk s => to_bool s | RErr _ => to_bool [] end
  | RErr _ => def_val
  end.
