(** Marshal and MarshalAll with panics: the values of Gotypes.v and, in
    addition, boolean types with a name (type Flag bool), types whose MarshalJSON
    fails or returns a text that Parse refuses, and maps and slices that contain
    themselves.  marshal.go, std_json.go:91-123. *)
From Verif Require Import Base Strconv SortedMap SortedMapFacts Json Printer Parser Heap Gotypes Marshal.

(** As [gval] of Gotypes.v, but for [XBool], [XStd] and [XShared]. *)
Inductive xval : Type :=
| XBool (named : bool) (b : bool)            (* named: its type is not bool itself *)
| XInt (k : ikind) (z : Z)
| XFloat (bit : Z) (f : fl)
| XString (s : bytes)
| XTri (t : option bool)
| XTime (t : option bytes)
| XSlice (l : option (list xval))
| XArray (l : list xval)
| XMap (m : option (list (bytes * xval)))
| XStruct (fs : list (finfo * xval))
| XPtr (a : option addr)
| XIface (v : option xval)
| XJsonPtr (j : option json)
| XJsonObj (j : option json)
| XJsonVal (j : json)
| XStd (text : option bytes)                 (* has MarshalJSON; None: it returns an error *)
| XShared (a : addr)                         (* a map or slice that others may share, or that contains itself: the one in cell a *)
| XOther.
Definition xstore := list xval.

(** What a call does: it runs for longer than the fuel, panics, or returns. *)
Inductive run (A : Type) : Type :=
| Going
| Panics
| Returns (a : A).
Arguments Going {A}. Arguments Panics {A}. Arguments Returns {A} a.

Definition after {A B} (r : run A) (k : A -> run B) : run B :=
  match r with
  | Going => Going
  | Panics => Panics
  | Returns a => k a
  end.

(** tryStdMarshal for a value that has MarshalJSON, std_json.go:107-121: the
    error of MarshalJSON and that of Parse are turned into panics, and Parse may
    panic by itself. *)
Definition marshal_std (s : session) (text : option bytes) : run (session * option mj) :=
  match text with
  | None => Panics
  | Some t =>
      match Parse t with
      | SOk j _ => Returns (s, Some (MLeaf j))
      | SErr _ _ | SPanic _ => Panics
      | SFuel => Going
      end
  end.

Section Containers.
Context (mv : session -> xval -> option finfo -> run (session * option mj)).

(** marshal.go:48-54 *)
Fixpoint x_elems (s : session) (l : list xval) : run (session * list mj) :=
  match l with
  | [] => Returns (s, [])
  | v :: l' =>
      after (mv s v None) (fun '(s1, r) =>
      after (x_elems s1 l') (fun '(s2, rs) =>
      Returns (s2, match r with Some x => x :: rs | None => rs end)))
  end.

(** marshal.go:83-90 *)
Fixpoint x_members (s : session) (m : list (bytes * xval)) : run (session * list (bytes * mj)) :=
  match m with
  | [] => Returns (s, [])
  | (k, v) :: m' =>
      after (mv s v None) (fun '(s1, r) =>
      after (x_members s1 m') (fun '(s2, ps) =>
      Returns (s2, match r with Some x => (k, x) :: ps | None => ps end)))
  end.

(** marshal.go:122-140; also the map depFields *)
Fixpoint x_fields (s : session) (fs : list (finfo * xval)) (dep : smap bytes)
  : run (session * list (bytes * mj) * smap bytes) :=
  match fs with
  | [] => Returns (s, [], dep)
  | (i, v) :: fs' =>
      if fi_ignore i then x_fields s fs' dep
      else match fi_deprecated_by i with
           | Some d => x_fields s fs' (sm_add dep (fi_name i) d)
           | None =>
               after (mv s v (Some i)) (fun '(s1, r) =>
               after (x_fields s1 fs' dep) (fun '(s2, ps, dep2) =>
               Returns (s2, match r with Some x => (fi_name i, x) :: ps | None => ps end, dep2)))
           end
  end.
End Containers.

Section MarshalValue.
Context (st : xstore) (omit : bool).

(** As [mval] of Marshal.v: marshal.go:37-167, 263-413.  The conversion
    objValue.Interface().(bool) at line 386 panics for boolean types with a
    name; the others (lines 383, 389, 392, 395) convert first. *)
Fixpoint xmval (fuel : nat) (s : session) (v : xval) (info : option finfo) {struct fuel} : run (session * option mj) :=
  match fuel with
  | O => Going
  | S n =>
      match v with
      | XBool true _ => Panics
      | XBool false b => Returns (s, marshal_bool omit info b)
      | XInt k z => Returns (s, marshal_int omit info (wrap (Signed 64) z))
      | XFloat bit f => Returns (s, marshal_float omit info bit f)
      | XString x => Returns (s, marshal_string omit info x)
      | XTri t => Returns (s, marshal_tri omit t)
      | XTime t => Returns (s, marshal_time omit info t)
      | XSlice None => Returns (s, nil_or_null omit)
      | XSlice (Some l) | XArray l =>
          match l with
          | [] => if flag info fi_omit_empty && omit then Returns (s, None) else Returns (s, finish_container info (MArr []))
          | _ => after (x_elems (xmval n) s l) (fun '(s1, rs) => Returns (s1, finish_container info (MArr rs)))
          end
      | XMap None => Returns (s, nil_or_null omit)
      | XMap (Some m) =>
          match m with
          | [] => if flag info fi_omit_empty && omit then Returns (s, None) else Returns (s, finish_container info (new_dict []))
          | _ => after (x_members (xmval n) s m) (fun '(s1, ps) => Returns (s1, finish_container info (new_dict ps)))
          end
      | XStruct fs =>
          after (x_fields (xmval n) s fs []) (fun '(s1, ps, dep) =>
          match dep_pairs n dep dep ps with
          | Some dps =>
              match ps ++ dps with
              | [] => if flag info fi_omit_empty && omit then Returns (s1, None) else Returns (s1, finish_container info (new_dict []))
              | all => Returns (s1, finish_container info (new_dict all))
              end
          | None => Going
          end)
      | XPtr None => Returns (s, nil_or_null omit)
      | XPtr (Some a) =>
          match tr_find None (s_trace s) a with
          | (t, Some id) => Returns ({| s_idx := s_idx s; s_trace := t |}, Some (MLeaf (JPtr id)))
          | (t, None) =>
              let '(s1, id) := new_pointer {| s_idx := s_idx s; s_trace := t |} a in
              match nth_error st a with
              | None => Going
              | Some x =>
                  after (xmval n s1 x info) (fun '(s2, r) =>
                  Returns ({| s_idx := s_idx s2; s_trace := tr_pop (s_trace s2) |}, set_owner id r))
              end
          end
      | XIface None => Returns (s, nil_or_null omit)
      | XIface (Some x) => xmval n s x info
      | XJsonPtr None | XJsonObj None => Returns (s, nil_or_null omit)
      | XJsonPtr (Some j) => Returns ({| s_idx := s_idx s + 1; s_trace := s_trace s |}, Some (MLeaf j))
      | XJsonObj (Some j) => Returns (s, Some (MLeaf j))
      | XJsonVal j => Returns (s, marshal_json_val omit info j)
      | XStd text => marshal_std s text
      | XShared a =>
          match nth_error st a with
          | Some (XMap (Some m) as x) => xmval n s x info
          | Some (XSlice (Some l) as x) => xmval n s x info
          | _ => Going
          end
      | XOther => Returns (s, Some (MLeaf JNull))
      end
  end.
End MarshalValue.

(** Marshal and MarshalAll, marshal.go:246-261, 415-430 *)
Definition xmarshal (omit : bool) (pick : list Z -> Z) (fuel : nat) (st : xstore) (v : option xval) : run json :=
  match v with
  | None => Returns JNull
  | Some (XPtr None) => Returns JNull
  | Some v =>
      after (xmval st omit fuel new_session v None) (fun '(s, r) =>
      match r with
      | Some m => Returns (set_ids pick (s_trace s) m)
      | None => Returns JNull
      end)
  end.
