(** Vocabulary for JSON values given to Marshal. *)
From Verif Require Import Base Strconv Json Gotypes.

(** What an [interface{}] holds to which the JSONObject [j] was assigned.
    JSONNull is a [*JSONValue], a pointer to an empty struct (jsonutils.go:64-68);
    every other JSONObject is of one of the types named in marshal.go:291. *)
Inductive boxed (st : store) : json -> gval -> Prop :=
| bx_null a : nth_error st a = Some (GStruct []) -> boxed st JNull (GPtr (Some a))
| bx_other j : j <> JNull -> boxed st j (GJsonPtr (Some j)).

(** What Marshal makes of it. *)
Definition passed (j : json) : json := match j with JNull => JDict 0 [] | _ => j end.

(** The elements of a [[]JSONObject] ([None] is nil): Marshal leaves nils out,
    MarshalAll gives null for them. *)
Definition kept_objs (omit : bool) (l : list (option json)) : list json :=
  flat_map (fun o => match o with Some j => [j] | None => if omit then [] else [JNull] end) l.

(** The same for a [map[string]JSONObject]. *)
Definition kept_members (omit : bool) (m : list (bytes * option json)) : list (bytes * json) :=
  flat_map (fun kv => match snd kv with Some j => [(fst kv, j)] | None => if omit then [] else [(fst kv, JNull)] end) m.
