(** Model of Marshal and MarshalAll: marshal.go, marshal_session.go,
    json_pointer_trace.go, jsonpointer.go:33-57. *)
From Verif Require Import Base Strconv SortedMap SortedMapFacts Json Printer Heap Gotypes.

(** ** The session: node ids and the trace of pointers being followed *)

(** sJsonPointerNode, json_pointer_trace.go:22-26; nodeId of its pointer. *)
Record tentry := { te_addr : addr; te_id : Z; te_cnt : Z }.

(** sJsonMarshalSession, marshal_session.go:17-21: nodeIndex and objectTrace.
    nodeMap holds every entry ever pushed; an entry that left the trace has
    refcnt 1 for ever, so what setAllNodeId needs is in the trace. *)
Record session := { s_idx : Z; s_trace : list tentry }.
Definition new_session : session := {| s_idx := 0; s_trace := [] |}.

Definition bump (e : tentry) : tentry := {| te_addr := te_addr e; te_id := te_id e; te_cnt := te_cnt e + 1 |}.

(** sJsonPointerTrace.find, json_pointer_trace.go:53-64 *)
Fixpoint tr_find (ret : option Z) (t : list tentry) (a : addr) : list tentry * option Z :=
  match t with
  | [] => ([], ret)
  | e :: t' =>
      let ret1 := if Nat.eqb (te_addr e) a then Some (te_id e) else ret in
      let e1 := match ret1 with Some _ => bump e | None => e end in
      let '(t1, r) := tr_find ret1 t' a in (e1 :: t1, r)
  end.

(** pop, json_pointer_trace.go:66-71 *)
Fixpoint tr_pop (t : list tentry) : list tentry :=
  match t with
  | [] => []
  | [e] => if te_cnt e =? 1 then [] else [e]
  | e :: t' => e :: tr_pop t'
  end.

(** newJsonPointer with push, jsonpointer.go:35-42, json_pointer_trace.go:42-51 *)
Definition new_pointer (s : session) (a : addr) : session * Z :=
  let id := s_idx s + 1 in
  ({| s_idx := id; s_trace := s_trace s ++ [{| te_addr := a; te_id := id; te_cnt := 1 |}] |}, id).

(** ** Results under construction

    A dict created by Marshal remembers the ids of the pointers that lead to
    it (setJsonObject, jsonpointer.go:44-49), because its own node id is only
    set at the end. *)
Inductive mj : Type :=
| MLeaf (j : json)
| MArr (l : list mj)
| MDict (owners : list Z) (kvs : smap mj).

(** The result with all node ids still 0. *)
Fixpoint mj_text (m : mj) : json :=
  match m with
  | MLeaf j => j
  | MArr l => JArray (map mj_text l)
  | MDict _ kvs => JDict 0 (map (fun kv => (fst kv, mj_text (snd kv))) kvs)
  end.

Definition set_owner (id : Z) (m : option mj) : option mj :=
  match m with
  | Some (MDict owners kvs) => Some (MDict (owners ++ [id]) kvs)
  | _ => m
  end.

(** ** Scalars *)

(** fmt.Sprintf with verb f: six decimals, correctly rounded. *)
Definition pad7 (d : bytes) : bytes := zeros (7 - Z.of_nat (length d)) ++ d.
Definition format_f6 (f : fl) : bytes :=
  match f with
  | FNaN => txt_NaN
  | FInf false => txt_pInf
  | FInf true => txt_nInf
  | FFin neg m e =>
      let n := if 0 <=? e then m * 2 ^ e * 10 ^ 6 else rne (m * 10 ^ 6) (2 ^ (- e)) in
      let d := pad7 (format_uint n) in
      let cut := (length d - 6)%nat in
      (if neg then ["-"%byte] else []) ++ firstn cut d ++ "."%byte :: skipn cut d
  end.

Definition flag (info : option finfo) (p : finfo -> bool) : bool :=
  match info with Some i => p i | None => false end.

(** marshalInt64, marshal.go:169-177 *)
Definition marshal_int (omit : bool) (info : option finfo) (z : Z) : option mj :=
  if (z =? 0) && flag info fi_omit_zero && omit then None
  else if flag info fi_force_string then Some (MLeaf (JString (format_int z)))
  else Some (MLeaf (JInt z)).

(** marshalFloat64, marshalFloat32, marshal.go:179-197 *)
Definition marshal_float (omit : bool) (info : option finfo) (bit : Z) (f : fl) : option mj :=
  if fl_is_zero f && flag info fi_omit_zero && omit then None
  else if flag info fi_force_string then Some (MLeaf (JString (format_f6 f)))
  else Some (MLeaf (JFloat f bit)).

(** marshalBoolean, marshal.go:199-211 *)
Definition marshal_bool (omit : bool) (info : option finfo) (b : bool) : option mj :=
  if negb b && flag info fi_omit_false && omit then None
  else if flag info fi_force_string then Some (MLeaf (JString (if b then txt_true else txt_false)))
  else Some (MLeaf (JBool b)).

(** JSONNull, or nil when omitting: marshal.go:38-44, 70-76, 218-224, 292-298, 401-407 *)
Definition nil_or_null (omit : bool) : option mj := if omit then None else Some (MLeaf JNull).

(** marshalTristate, marshal.go:213-225 *)
Definition marshal_tri (omit : bool) (t : option bool) : option mj :=
  match t with Some b => Some (MLeaf (JBool b)) | None => nil_or_null omit end.

(** marshalString, marshal.go:227-233 *)
Definition marshal_string (omit : bool) (info : option finfo) (s : bytes) : option mj :=
  match s with
  | [] => if flag info fi_omit_empty && omit then None else Some (MLeaf (JString []))
  | _ => Some (MLeaf (JString s))
  end.

(** marshalTime, marshal.go:235-244 *)
Definition marshal_time (omit : bool) (info : option finfo) (t : option bytes) : option mj :=
  match t with
  | None => if flag info fi_omit_empty && omit then None else Some (MLeaf (JString []))
  | Some s => Some (MLeaf (JString s))
  end.

(** A JSON value held by value, marshal.go:300-367: empty in the sense of its
    own kind. *)
Definition json_empty (j : json) : bool :=
  match j with
  | JDict _ [] | JArray [] | JBool false | JString [] => true
  | JInt z => z =? 0
  | JFloat f _ => fl_is_zero f
  | _ => false
  end.
Definition marshal_json_val (omit : bool) (info : option finfo) (j : json) : option mj :=
  if json_empty j && flag info fi_omit_empty && omit then None else Some (MLeaf j).

(** Lines 55-59, 86-90, 99-103 of marshal.go *)
Definition finish_container (info : option finfo) (m : mj) : option mj :=
  if flag info fi_force_string then Some (MLeaf (JString (String_ (mj_text m)))) else Some m.

(** ** Deprecated fields, marshal.go:141-166 *)

(** The loop at lines 146-156: where the chain from [start] leads, [Some None]
    if it comes back to [start]; [None] when it needs more than [fuel] steps. *)
Fixpoint dep_resolve (fuel : nat) (dep : smap bytes) (start key : bytes) : option (option bytes) :=
  match fuel with
  | O => None
  | S n =>
      match sm_get dep key with
      | Some okey => if bseq okey start then Some None else dep_resolve n dep start okey
      | None => Some (Some key)
      end
  end.

(** findValueByKey, marshal.go:112-119 *)
Fixpoint find_value (pairs : list (bytes * mj)) (key : bytes) : option mj :=
  match pairs with
  | [] => None
  | (k, v) :: pairs' => if bseq k key then Some v else find_value pairs' key
  end.

(** The loop over depFields, lines 144-164.  Go visits the map in any order;
    the pairs it makes have different keys and end up in one dict. *)
Fixpoint dep_pairs (fuel : nat) (dep todo : smap bytes) (pairs : list (bytes * mj)) : option (list (bytes * mj)) :=
  match todo with
  | [] => Some []
  | (depKey, key) :: todo' =>
      match dep_resolve fuel dep depKey key, dep_pairs fuel dep todo' pairs with
      | Some r, Some rest =>
          match (match r with Some k => find_value pairs k | None => None end) with
          | Some v => Some ((depKey, v) :: rest)
          | None => Some rest
          end
      | _, _ => None
      end
  end.

(** ** Containers *)

Section Containers.
Context (mv : session -> gval -> option finfo -> option (session * option mj)).

(** marshal.go:48-54 *)
Fixpoint m_elems (s : session) (l : list gval) : option (session * list mj) :=
  match l with
  | [] => Some (s, [])
  | v :: l' =>
      match mv s v None with
      | Some (s1, r) =>
          match m_elems s1 l' with
          | Some (s2, rs) => Some (s2, match r with Some x => x :: rs | None => rs end)
          | None => None
          end
      | None => None
      end
  end.

(** marshal.go:83-90 *)
Fixpoint m_members (s : session) (m : list (bytes * gval)) : option (session * list (bytes * mj)) :=
  match m with
  | [] => Some (s, [])
  | (k, v) :: m' =>
      match mv s v None with
      | Some (s1, r) =>
          match m_members s1 m' with
          | Some (s2, ps) => Some (s2, match r with Some x => (k, x) :: ps | None => ps end)
          | None => None
          end
      | None => None
      end
  end.

(** marshal.go:122-140; also the map depFields *)
Fixpoint m_fields (s : session) (fs : list (finfo * gval)) (dep : smap bytes)
  : option (session * list (bytes * mj) * smap bytes) :=
  match fs with
  | [] => Some (s, [], dep)
  | (i, v) :: fs' =>
      if fi_ignore i then m_fields s fs' dep
      else match fi_deprecated_by i with
           | Some d => m_fields s fs' (sm_add dep (fi_name i) d)
           | None =>
               match mv s v (Some i) with
               | Some (s1, r) =>
                   match m_fields s1 fs' dep with
                   | Some (s2, ps, dep2) => Some (s2, match r with Some x => (fi_name i, x) :: ps | None => ps end, dep2)
                   | None => None
                   end
               | None => None
               end
           end
  end.
End Containers.

(** NewDict, access.go:32-38 *)
Definition new_dict (ps : list (bytes * mj)) : mj := MDict [] (sm_of_list ps []).

(** ** marshalValue *)

Section MarshalValue.
Context (st : store) (omit : bool).

(** marshalValue, marshalValueWithObjectMap, _marshalValue, marshalSlice,
    marshalMap, marshalStruct: marshal.go:37-167, 263-413.  The inner [None]
    is a nil JSONObject; the outer one means that the call needs more than
    [fuel] nested calls (or meets an address without a value, which Go does
    not have). *)
Fixpoint mval (fuel : nat) (s : session) (v : gval) (info : option finfo) {struct fuel} : option (session * option mj) :=
  match fuel with
  | O => None
  | S n =>
      match v with
      | GBool b => Some (s, marshal_bool omit info b)
      | GInt k z => Some (s, marshal_int omit info (wrap (Signed 64) z))
      | GFloat bit f => Some (s, marshal_float omit info bit f)
      | GString x => Some (s, marshal_string omit info x)
      | GTri t => Some (s, marshal_tri omit t)
      | GTime t => Some (s, marshal_time omit info t)
      | GSlice None => Some (s, nil_or_null omit)
      | GSlice (Some l) | GArray l =>
          match l with
          | [] => if flag info fi_omit_empty && omit then Some (s, None) else Some (s, finish_container info (MArr []))
          | _ => match m_elems (mval n) s l with
                 | Some (s1, rs) => Some (s1, finish_container info (MArr rs))
                 | None => None
                 end
          end
      | GMap None => Some (s, nil_or_null omit)
      | GMap (Some m) =>
          match m with
          | [] => if flag info fi_omit_empty && omit then Some (s, None) else Some (s, finish_container info (new_dict []))
          | _ => match m_members (mval n) s m with
                 | Some (s1, ps) => Some (s1, finish_container info (new_dict ps))
                 | None => None
                 end
          end
      | GStruct fs =>
          match m_fields (mval n) s fs [] with
          | Some (s1, ps, dep) =>
              match dep_pairs n dep dep ps with
              | Some dps =>
                  match ps ++ dps with
                  | [] => if flag info fi_omit_empty && omit then Some (s1, None) else Some (s1, finish_container info (new_dict []))
                  | all => Some (s1, finish_container info (new_dict all))
                  end
              | None => None
              end
          | None => None
          end
      | GPtr None => Some (s, nil_or_null omit)
      | GPtr (Some a) =>
          match tr_find None (s_trace s) a with
          | (t, Some id) => Some ({| s_idx := s_idx s; s_trace := t |}, Some (MLeaf (JPtr id)))
          | (t, None) =>
              let '(s1, id) := new_pointer {| s_idx := s_idx s; s_trace := t |} a in
              match nth_error st a with
              | None => None
              | Some x =>
                  match mval n s1 x info with
                  | Some (s2, r) => Some ({| s_idx := s_idx s2; s_trace := tr_pop (s_trace s2) |}, set_owner id r)
                  | None => None
                  end
              end
          end
      | GIface None => Some (s, nil_or_null omit)
      | GIface (Some x) => mval n s x info
      | GJsonPtr None | GJsonObj None => Some (s, nil_or_null omit)
      | GJsonPtr (Some j) => Some ({| s_idx := s_idx s + 1; s_trace := s_trace s |}, Some (MLeaf j))
      | GJsonObj (Some j) => Some (s, Some (MLeaf j))
      | GJsonVal j => Some (s, marshal_json_val omit info j)
      | GStd j => Some (s, Some (MLeaf j))
      | GOther => Some (s, Some (MLeaf JNull))
      end
  end.
End MarshalValue.

(** setAllNodeId, jsonpointer.go:51-57.  Go visits nodeMap in any order, so if
    several of a dict's pointers were referred to, any of their ids may win:
    [pick]. *)
Definition referred (t : list tentry) (id : Z) : bool :=
  existsb (fun e => (te_id e =? id) && (1 <? te_cnt e)) t.
Definition node_id (pick : list Z -> Z) (t : list tentry) (owners : list Z) : Z :=
  match filter (referred t) owners with
  | [] => 0
  | ids => pick ids
  end.
Fixpoint set_ids (pick : list Z -> Z) (t : list tentry) (m : mj) : json :=
  match m with
  | MLeaf j => j
  | MArr l => JArray (map (set_ids pick t) l)
  | MDict owners kvs => JDict (node_id pick t owners) (map (fun kv => (fst kv, set_ids pick t (snd kv))) kvs)
  end.

(** Marshal and MarshalAll, marshal.go:246-261, 415-430; [None] as the argument
    is a nil interface. *)
Definition marshal_with (omit : bool) (pick : list Z -> Z) (fuel : nat) (st : store) (v : option gval) : option json :=
  match v with
  | None => Some JNull
  | Some (GPtr None) => Some JNull
  | Some v =>
      match mval st omit fuel new_session v None with
      | Some (s, Some m) => Some (set_ids pick (s_trace s) m)
      | Some (s, None) => Some JNull
      | None => None
      end
  end.
Definition Marshal := marshal_with true.
Definition MarshalAll := marshal_with false.
