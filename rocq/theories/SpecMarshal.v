(** Vocabulary for Marshal: pointer graphs, references and node ids. *)
From Coq Require Import Sorting.Sorted.
From Verif Require Import Base Strconv Json SpecJson SpecEquals Heap Gotypes.

(** Every address in a value. *)
Fixpoint pointers (v : gval) : list addr :=
  match v with
  | GSlice (Some l) | GArray l => flat_map pointers l
  | GMap (Some m) => flat_map (fun kv => pointers (snd kv)) m
  | GStruct fs => flat_map (fun fv => pointers (snd fv)) fs
  | GPtr (Some a) => [a]
  | GIface (Some x) => pointers x
  | _ => []
  end.

(** Every struct in a value. *)
Fixpoint structs (v : gval) : list (list (finfo * gval)) :=
  match v with
  | GSlice (Some l) | GArray l => flat_map structs l
  | GMap (Some m) => flat_map (fun kv => structs (snd kv)) m
  | GStruct fs => fs :: flat_map (fun fv => structs (snd fv)) fs
  | GIface (Some x) => structs x
  | _ => []
  end.

(** Every map in a value. *)
Fixpoint maps (v : gval) : list (list (bytes * gval)) :=
  match v with
  | GSlice (Some l) | GArray l => flat_map maps l
  | GMap (Some m) => m :: flat_map (fun kv => maps (snd kv)) m
  | GStruct fs => flat_map (fun fv => maps (snd fv)) fs
  | GIface (Some x) => maps x
  | _ => []
  end.

(** Every JSON value held by a value. *)
Fixpoint held_json (v : gval) : list json :=
  match v with
  | GSlice (Some l) | GArray l => flat_map held_json l
  | GMap (Some m) => flat_map (fun kv => held_json (snd kv)) m
  | GStruct fs => flat_map (fun fv => held_json (snd fv)) fs
  | GIface (Some x) => held_json x
  | GJsonPtr (Some j) | GJsonObj (Some j) | GJsonVal j | GStd j => [j]
  | _ => []
  end.

(** A finite object graph: no pointer leads outside it. *)
Definition graph (st : store) (v : gval) : Prop :=
  forall x a, x = v \/ In x st -> In a (pointers x) -> (a < length st)%nat.

(** The ids of all dicts that carry one, and of all references. *)
Fixpoint node_ids (j : json) : list Z :=
  match j with
  | JArray l => flat_map node_ids l
  | JDict nid kvs => (if 0 <? nid then [nid] else []) ++ flat_map (fun kv => node_ids (snd kv)) kvs
  | _ => []
  end.
Fixpoint ref_ids (j : json) : list Z :=
  match j with
  | JArray l => flat_map ref_ids l
  | JDict _ kvs => flat_map (fun kv => ref_ids (snd kv)) kvs
  | JPtr n => [n]
  | _ => []
  end.

(** ** Deprecated-by chains *)

(** The deprecated-by tags of a struct: name to name (for fields of the same
    name, the last tag). *)
Fixpoint tag_of (fs : list (finfo * gval)) (k : bytes) : option bytes :=
  match fs with
  | [] => None
  | (i, _) :: fs' =>
      match tag_of fs' k with
      | Some d => Some d
      | None => if negb (fi_ignore i) && bseq (fi_name i) k then fi_deprecated_by i else None
      end
  end.

(** The chain from [a] passes through [b]. *)
Inductive leads (tag : bytes -> option bytes) : bytes -> bytes -> Prop :=
| leads_refl a : leads tag a a
| leads_step a b c : tag a = Some b -> leads tag b c -> leads tag a c.

(** The chain from [a] ends at a name that is not deprecated. *)
Definition ends_at (tag : bytes -> option bytes) (a e : bytes) : Prop := leads tag a e /\ tag e = None.
(** The chain from [a] comes back to [a]. *)
Definition returns (tag : bytes -> option bytes) (a : bytes) : Prop := exists b, tag a = Some b /\ leads tag b a.
(** The chain from [a] enters a loop that [a] is not part of. *)
Definition trapped (tag : bytes -> option bytes) (a : bytes) : Prop :=
  exists b, leads tag a b /\ returns tag b /\ ~ leads tag b a.

(** ** Graphs whose references Marshal can resolve *)

(** Neither a container nor a pointer or interface that leads somewhere. *)
Definition single_value (v : gval) : Prop :=
  match v with
  | GSlice (Some _) | GArray _ | GMap (Some _) | GStruct _ | GPtr (Some _) | GIface (Some _) => False
  | _ => True
  end.
(** Fields with the string option hold single values. *)
Definition text_fields_flat (fs : list (finfo * gval)) : Prop :=
  forall i v, In (i, v) fs -> fi_ignore i = false -> fi_force_string i = true -> single_value v.
Definition no_deprecated (fs : list (finfo * gval)) : Prop :=
  forall i v, In (i, v) fs -> fi_ignore i = false -> fi_deprecated_by i = None.
Definition emitted_names (fs : list (finfo * gval)) : list bytes :=
  map (fun fv => fi_name (fst fv)) (filter (fun fv => negb (fi_ignore (fst fv))) fs).

Definition plain_value (v : gval) : Prop :=
  (forall fs, In fs (structs v) -> text_fields_flat fs /\ no_deprecated fs /\ NoDup (emitted_names fs)) /\
  (forall m, In m (maps v) -> NoDup (map fst m)) /\
  (forall j, In j (held_json v) -> node_ids j = [] /\ ref_ids j = []).

(** Pointers lead to structs and maps only. *)
Definition struct_or_map (v : gval) : Prop :=
  match v with GStruct _ | GMap _ => True | _ => False end.
Definition plain_graph (st : store) (v : gval) : Prop :=
  graph st v /\ plain_value v /\ Forall plain_value st /\ Forall struct_or_map st.
