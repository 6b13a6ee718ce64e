(** Model of unmarshalStruct for structs with embedded struct pointers:
    unmarshal.go:577-633, lines 596-598 included.

    For an embedded struct pointer that is nil reflectutils.FetchStructFieldValueSet
    (not in /repo) makes a new struct and gives the variables of its fields,
    each with the pointer and the new struct as Parent.  Here the new structs
    are in memory from the start, and the list of the struct's variables has
    their fields' variables in it. *)
From Verif Require Import Base SortedMap Json Heap Gotypes Marshal Access Unmarshal.

(** Parent.Field and Parent.Value: the pointer variable, the new struct *)
Definition parent := option (addr * addr).

(** unmarshal.go:596-598 *)
Definition set_parent (m : mem) (p : parent) : mem :=
  match p with
  | Some (f, b) => match nth_error m f with
                   | Some (VPtr None) => mwrite m f (VPtr (Some b))
                   | _ => m
                   end
  | None => m
  end.

Section Embedded.
Context (env : nat -> list (finfo * gty)) (locate : list (finfo * gty) -> bytes -> list nat).
Context (match_us match_eu : bytes -> bool) (to_bool : bytes -> bool)
  (parse_time : bytes -> option bytes) (time_json : bytes -> option (option bytes)) (std_ok : bytes -> bool).
Notation unm := (unm env locate match_us match_eu to_bool parse_time time_json std_ok).

Section Loops.
Context (un : ustate -> gty -> addr -> json -> ures (option uerr)).

(** setStructFieldAt, unmarshal.go:577-612 *)
Fixpoint set_field_p (fuel : nat) (st : ustate) (visited : list bytes) (fs : list (finfo * gty)) (l : list addr) (ps : list parent)
    (key : bytes) (j : json) : ures (list bytes * option uerr) :=
  match fuel with
  | O => UFuel
  | S n =>
      if in_strings key visited then UOk st (visited, None)
      else
        (fix go (idx : list nat) (st : ustate) (visited : list bytes) : ures (list bytes * option uerr) :=
           match idx with
           | [] => UOk st (visited, None)
           | i :: idx' =>
               match nth_error fs i, nth_error l i with
               | Some (info, t), Some a =>
                   let st := with_mem st (set_parent (u_mem st) (nth i ps None)) in
                   ubind (un st t a j) (fun st1 e =>
                     match e with
                     | Some _ => UOk st1 (visited, e)
                     | None =>
                         match fi_deprecated_by info with
                         | None => go idx' st1 visited
                         | Some other =>
                             ubind (set_field_p n st1 visited fs l ps other j) (fun st2 r =>
                               match snd r with
                               | Some _ => UOk st2 r
                               | None => go idx' st2 (fst r)
                               end)
                         end
                     end)
               | _, _ => UPanic                 (* index out of range: not reached *)
               end
           end) (locate fs key) st (key :: visited)
  end.

(** unmarshalStruct, unmarshal.go:614-633 (without AfterUnmarshal) *)
Fixpoint un_fields_p (st : ustate) (fs : list (finfo * gty)) (l : list addr) (ps : list parent) (kvs : list (bytes * json))
    (errs : list (bytes * uerr)) : ures (option uerr) :=
  match kvs with
  | [] => UOk st (match errs with [] => None | _ => Some (EMany errs) end)
  | (k, j) :: kvs' =>
      ubind (set_field_p (S (S (length fs))) st [] fs l ps k j) (fun st1 r =>
        un_fields_p st1 fs l ps kvs' (match snd r with Some e => errs ++ [(k, e)] | None => errs end))
  end.
End Loops.

(** Unmarshal(&x) of a dict, for a variable x of a struct type whose variables
    and their parents are those in [l] and [ps]: unmarshal.go:57-72, 477-482,
    505-508; the structs inside it are taken to have no embedded pointers. *)
Definition Unmarshal_embedded (fuel : nat) (m : mem) (name : nat) (fs : list (finfo * gty)) (ps : list parent) (a : addr)
    (nid : Z) (kvs : smap json) : utop :=
  let st := {| u_mem := m; u_sess := [] |} in
  match ubind (if 0 <? nid then save_node_value st nid a (TStruct name fs) else UOk st tt) (fun st _ =>
          un_fields_p (unm fuel) st fs (fields_of a (u_mem st)) ps kvs []) with
  | UOk st None => TopOk (u_mem st)
  | UOk st (Some e) => TopErr (u_mem st) e
  | UPanic => TopPanic
  | UFuel => TopFuel
  end.
End Embedded.
