(** Which values make Marshal panic, and which graphs it never gets through
    (C56).  MarshalX.v is used for the type of values only. *)
From Verif Require Import Base Strconv Json SpecJson SpecLenient Heap Gotypes SpecMarshal MarshalX.

(** A value that Marshal cannot handle: a boolean of a type with a name, or one
    whose MarshalJSON returns an error or a text that Parse does not accept (the
    texts it accepts: C54). *)
Definition unmarshalable (x : xval) : Prop :=
  match x with
  | XBool named _ => named = true
  | XStd None => True
  | XStd (Some t) => ~ exists v n, lenient_text t v n
  | _ => False
  end.

Section Visits.
Context (st : xstore).

(** What is directly inside a value; fields that are ignored or deprecated do
    not count.  [p] is the pointer that is followed, if it is one. *)
Inductive inside : xval -> option addr -> xval -> Prop :=
| in_slice l x : In x l -> inside (XSlice (Some l)) None x
| in_array l x : In x l -> inside (XArray l) None x
| in_map m k x : In (k, x) m -> inside (XMap (Some m)) None x
| in_field fs i x : In (i, x) fs -> fi_ignore i = false -> fi_deprecated_by i = None -> inside (XStruct fs) None x
| in_iface x : inside (XIface (Some x)) None x
| in_shared a x : nth_error st a = Some x -> inside (XShared a) None x
| in_pointer a x : nth_error st a = Some x -> inside (XPtr (Some a)) (Some a) x.

(** [x] is [v] or somewhere inside. *)
Inductive contains : xval -> xval -> Prop :=
| c_self v : contains v v
| c_step v p w x : inside v p w -> contains w x -> contains v x.

(** The same without following pointers. *)
Inductive holds_directly : xval -> xval -> Prop :=
| h_one v x : inside v None x -> holds_directly v x
| h_step v w x : inside v None w -> holds_directly w x -> holds_directly v x.

(** A value that Marshal never gets done with: it holds itself without a pointer
    in between (a map or slice that contains itself), or it is a struct with a
    trapped chain of deprecated-by tags (SpecMarshal.v, C32). *)
Definition tags (fs : list (finfo * xval)) : bytes -> option bytes := tag_of (map (fun fv => (fst fv, GOther)) fs).
Definition endless (x : xval) : Prop :=
  holds_directly x x \/ exists fs k, x = XStruct fs /\ trapped (tags fs) k.

(** The pointers, maps and slices inside a value lead to what they say. *)
Definition complete (v : xval) : Prop := forall x, contains v x ->
  match x with
  | XPtr (Some a) => exists y, nth_error st a = Some y
  | XShared a => (exists m, nth_error st a = Some (XMap (Some m))) \/ (exists l, nth_error st a = Some (XSlice (Some l)))
  | _ => True
  end.

(** The [gval] of Gotypes.v that a value is, if no map or slice contains itself
    otherwise than through a pointer.  Values that Marshal cannot handle stand
    for anything. *)
Inductive stands : xval -> gval -> Prop :=
| st_bool b : stands (XBool false b) (GBool b)
| st_int k z : stands (XInt k z) (GInt k z)
| st_float bit f : stands (XFloat bit f) (GFloat bit f)
| st_string s : stands (XString s) (GString s)
| st_tri t : stands (XTri t) (GTri t)
| st_time t : stands (XTime t) (GTime t)
| st_nil_slice : stands (XSlice None) (GSlice None)
| st_slice l l' : Forall2 stands l l' -> stands (XSlice (Some l)) (GSlice (Some l'))
| st_array l l' : Forall2 stands l l' -> stands (XArray l) (GArray l')
| st_nil_map : stands (XMap None) (GMap None)
| st_map m m' : Forall2 (fun a b => fst a = fst b /\ stands (snd a) (snd b)) m m' -> stands (XMap (Some m)) (GMap (Some m'))
| st_struct fs fs' : Forall2 (fun a b => fst a = fst b /\ stands (snd a) (snd b)) fs fs' -> stands (XStruct fs) (GStruct fs')
| st_ptr a : stands (XPtr a) (GPtr a)
| st_nil_iface : stands (XIface None) (GIface None)
| st_iface x g : stands x g -> stands (XIface (Some x)) (GIface (Some g))
| st_json_ptr j : stands (XJsonPtr j) (GJsonPtr j)
| st_json_obj j : stands (XJsonObj j) (GJsonObj j)
| st_json_val j : stands (XJsonVal j) (GJsonVal j)
| st_std t j n : lenient_text t j n -> stands (XStd (Some t)) (GStd j)
| st_shared a m g : nth_error st a = Some (XMap (Some m)) -> stands (XMap (Some m)) g -> stands (XShared a) g
| st_shared_slice a l g : nth_error st a = Some (XSlice (Some l)) -> stands (XSlice (Some l)) g -> stands (XShared a) g
| st_other : stands XOther GOther
| st_cannot x g : unmarshalable x -> pointers g = [] -> structs g = [] -> stands x g.
End Visits.
