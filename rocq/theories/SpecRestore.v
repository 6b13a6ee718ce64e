(** Vocabulary for the round trip of Marshal and Unmarshal: which Go values and
    types, and when a variable holds the same value as a Go value.  Does not
    mention the functions that marshal and unmarshal. *)
From Verif Require Import Base Strconv SpecFloat SortedMap Json SpecJson Heap Gotypes SpecMarshal SpecEncode Printer Marshal Unmarshal SpecUnmarshal SpecFloatText.

(** ** When a variable holds a value *)

Section Shows.
(** [R s b]: the object [s] of the store is at variable [b]; [get]: memory;
    [time_json]: what time.Time's own UnmarshalJSON makes of a text. *)
Context (time_json : bytes -> option (option bytes)) (R : addr -> addr -> Prop) (get : addr -> option vcell).

Inductive shows : gval -> addr -> Prop :=
| sh_bool b a : get a = Some (VBool b) -> shows (GBool b) a
| sh_int k z a : get a = Some (VInt z) -> shows (GInt k z) a
| sh_float bit x a : get a = Some (VFloat x) -> shows (GFloat bit x) a
| sh_string s a : get a = Some (VString s) -> shows (GString s) a
| sh_tri o a : get a = Some (VString (match o with None => [] | Some true => txt_true | Some false => txt_false end)) -> shows (GTri o) a
| sh_time o a : get a = Some (VTime o) -> shows (GTime o) a
| sh_nil_slice a : get a = Some (VSlice None) -> shows (GSlice None) a
| sh_slice l vars n a : get a = Some (VSlice (Some (vars, n))) -> Forall2 shows l (firstn n vars) -> shows (GSlice (Some l)) a
| sh_array l vars a : get a = Some (VArray vars) -> Forall2 shows l vars -> shows (GArray l) a
| sh_nil_map a : get a = Some (VMap None) -> shows (GMap None) a
| sh_map kvs d vars a : get a = Some (VMap (Some d)) -> get d = Some (VMapData vars) ->
    Forall2 (fun kv kx => fst kv = fst kx /\ shows (snd kv) (snd kx)) kvs vars -> shows (GMap (Some kvs)) a
| sh_struct fs vars a : get a = Some (VStruct vars) -> Forall2 (fun fv x => shows (snd fv) x) fs vars -> shows (GStruct fs) a
| sh_nil_ptr a : get a = Some (VPtr None) -> shows (GPtr None) a
| sh_ptr s b a : get a = Some (VPtr (Some b)) -> R s b -> shows (GPtr (Some s)) a
| sh_nil_iface a : get a = Some (VIface None) -> shows (GIface None) a
| sh_iface s b t a : get a = Some (VIface (Some (DynPtr b t))) -> R s b -> shows (GIface (Some (GPtr (Some s)))) a
| sh_json_obj o a : get a = Some (VJson o) -> shows (GJsonObj o) a
| sh_json_ptr o a : get a = Some (VJson o) -> shows (GJsonPtr o) a
(* what UnmarshalJSON was last called with is the text of what MarshalJSON gave *)
| sh_std j a : get a = Some (VStd (Some (String_ j))) -> shows (GStd j) a
| sh_std_ptr j b a : get a = Some (VPtr (Some b)) -> get b = Some (VStd (Some (String_ j))) -> shows (GStd j) a
(* a *time.Time: its UnmarshalJSON reads the text that its MarshalJSON gave *)
| sh_std_time j o b a : get a = Some (VPtr (Some b)) -> get b = Some (VTime o) -> time_json (String_ j) = Some o -> shows (GStd j) a.
End Shows.

Section Same.
Context (time_json : bytes -> option (option bytes)).

(** Variable [b] is the same as the object [s], as far as one can see by
    following at most [d] pointers. *)
Fixpoint alike_to (st : store) (m : mem) (d : nat) (s b : addr) : Prop :=
  match d with
  | O => True
  | S d' => exists x, nth_error st s = Some x /\ shows time_json (alike_to st m d') (nth_error m) x b
  end.

(** Variable [a] holds the value [v]: whatever can be seen of one by following
    any number of pointers can be seen of the other. *)
Definition same_value (st : store) (v : gval) (m : mem) (a : addr) : Prop :=
  forall d, shows time_json (alike_to st m d) (nth_error m) v a.
End Same.

(** ** Types that can be restored *)

Section Types.
Context (env : nat -> list (finfo * gty)) (locate : list (finfo * gty) -> bytes -> list nat).

(** Booleans, numbers, strings and tristates, and pointers to them. *)
Fixpoint basic (t : gty) : Prop :=
  match t with
  | TBool | TInt _ | TFloat _ | TString | TTri => True
  | TPtr t' => basic t'
  | _ => False
  end.

Definition word (b : Z) : Prop := b = 8 \/ b = 16 \/ b = 32 \/ b = 64.

(** Fields that are neither ignored nor deprecated, whose names are told apart. *)
Definition plain_fields (fs : list (finfo * gty)) : Prop :=
  (forall f t, In (f, t) fs -> fi_ignore f = false /\ fi_deprecated_by f = None) /\
  NoDup (map (fun ft => fi_name (fst ft)) fs) /\
  (forall i f t, nth_error fs i = Some (f, t) -> locate fs (fi_name f) = [i]).

(** No interfaces but those for which structs can be made, no value-typed JSON
    objects; pointers lead to structs, slices, arrays, maps, basic types or types
    with MarshalJSON and UnmarshalJSON, time.Time among them. *)
Fixpoint restorable (t : gty) : Prop :=
  match t with
  | TBool | TString | TTri | TTime | TJsonObj | TJsonPtr _ | TSer _ (Makes _) | TStd => True
  | TInt (Signed b) | TInt (Unsigned b) => word b
  | TFloat b => b = 32 \/ b = 64
  | TSlice t' | TMap t' => match t' with TNamed _ => True | _ => restorable t' end
  | TArray _ t' => restorable t'
  | TPtr t' => match t' with
               | TNamed _ | TStd | TTime => True
               | TSlice _ | TArray _ _ | TMap _ => restorable t'
               | _ => basic t' /\ restorable t'
               end
  | TStruct _ fs => plain_fields fs /\
      (fix go (fs : list (finfo * gty)) : Prop := match fs with [] => True | (_, t') :: fs' => restorable t' /\ go fs' end) fs
  | _ => False
  end.

(** ** Values of a type *)

Context (parse_time : bytes -> option bytes) (time_json : bytes -> option (option bytes)).
(** The types of the objects in the store. *)
Context (types : list gty).

(** JSON held by a value: not null, and no references or node ids in it. *)
Definition pure_json (j : json) : Prop := j <> JNull /\ node_ids j = [] /\ ref_ids j = [].

Fixpoint holds (v : gval) (t : gty) {struct v} : Prop :=
  match v, t with
  | GBool _, TBool | GString _, TString | GTri _, TTri | GTime None, TTime => True
  | GInt k z, TInt k' => k = k' /\ in_kind k z = true
  | GFloat bit x, TFloat bit' => bit = bit' /\ (bit = 32 -> single x)
  | GTime (Some s), TTime => s <> [] /\ parse_time s = Some s
  | GSlice None, TSlice _ | GMap None, TMap _ | GPtr None, TPtr _ | GJsonObj None, TJsonObj | GJsonPtr None, TJsonPtr _ => True
  | GSlice (Some l), TSlice t' => (fix go l := match l with [] => True | x :: l' => holds x (named env t') /\ go l' end) l
  | GArray l, TArray n t' => length l = n /\ (fix go l := match l with [] => True | x :: l' => holds x t' /\ go l' end) l
  | GMap (Some m), TMap t' => sm_ok m /\
      (fix go (m : list (bytes * gval)) := match m with [] => True | (_, x) :: m' => holds x (named env t') /\ go m' end) m
  | GStruct fs, TStruct _ ts =>
      (fix go (fs : list (finfo * gval)) (ts : list (finfo * gty)) :=
         match fs, ts with
         | [], [] => True
         | (f, x) :: fs', (f', t') :: ts' => f = f' /\ holds x t' /\ go fs' ts'
         | _, _ => False
         end) fs ts
  | GIface None, TSer _ _ => True
  | GIface (Some (GPtr (Some s))), TSer _ (Makes n) => nth_error types s = Some (TStruct n (env n))
  | GPtr (Some s), TPtr TTime => False        (* that has MarshalJSON: a GStd *)
  | GPtr (Some s), TPtr t' => nth_error types s = Some (named env t')
  | GJsonObj (Some j), TJsonObj => pure_json j
  | GJsonPtr (Some j), TJsonPtr k => pure_json j /\ kind_of j = Some k
  | GStd j, TStd | GStd j, TPtr TStd => pure_json j
  | GStd j, TPtr TTime => pure_json j /\ time_json (String_ j) <> None
  | _, _ => False
  end.

(** The objects have their types, these can be restored, and no pointer leads
    to a nil. *)
Definition typed_store (st : store) : Prop :=
  Forall2 holds st types /\ Forall (fun x => ~ is_nil x) st /\ Forall (fun t => proper env t /\ restorable t) types.
End Types.

(** ** Fields with the string option *)

Section Texts.
Context (match_us match_eu : bytes -> bool) (to_bool : bytes -> bool) (std_ok : bytes -> bool).

(** Values that a field with the string option carries over: booleans if their
    words are understood, unsigned integers below 2^63, and floats whose text
    with six decimals means them and is not taken for an amount in European
    notation; the other flat values, all signed integers among them, always. *)
Definition survives_text (x : gval) : Prop :=
  match x with
  | GBool b => to_bool (if b then txt_true else txt_false) = b
  | GInt (Unsigned _) z => z < 2 ^ 63
  | GFloat _ f => float_value (format_f6 f) f /\ (match_us (format_f6 f) = true \/ match_eu (format_f6 f) = false)
  | _ => True
  end.

(** In all of the graph fields with the string option hold such values, or
    pointers to such values: no slices, arrays, maps or structs; and UnmarshalJSON
    accepts the text of what MarshalJSON gives. *)
Definition text_carries (i : option finfo) (w : gval) : Prop :=
  (forced i = true -> survives_text w /\ match w with GSlice (Some _) | GArray _ | GMap (Some _) | GStruct _ => False | _ => True end) /\
  match w with GStd j => std_ok (String_ j) = true | _ => True end.
Definition texts_survive (st : store) (v : gval) : Prop :=
  forall x i w, x = v \/ In x st -> sub st (None, x) (i, w) -> text_carries i w.
End Texts.

(** The zero values of types without pointers in them, and nils. *)
Inductive zero_value : gval -> Prop :=
| z_nil v : is_nil v -> zero_value v
| z_bool : zero_value (GBool false)
| z_int k : zero_value (GInt k 0)
| z_float bit : zero_value (GFloat bit (fzero F64 false))
| z_string : zero_value (GString [])
| z_time : zero_value (GTime None)
| z_array l : Forall zero_value l -> zero_value (GArray l)
| z_struct fs : Forall (fun fv => zero_value (snd fv)) fs -> zero_value (GStruct fs).

(** Whatever Marshal leaves out ([omit]: it does) is a field and has the zero
    value, such as nil, [""] with omitempty, or 0 with omitzero; so not an empty
    slice, a pointer to 0, or a nil in a slice or map. *)
Definition only_zeros_dropped (omit : bool) (st : store) (i : option finfo) (v : gval) : Prop :=
  omit = true -> forall i' w, sub st (i, v) (i', w) -> dropped st i' w -> i' <> None /\ zero_value w.

(** ** The order of nodes and references *)

(** In the order in which a reader of the JSON value meets them: the start of a
    dict with a node id, and references. *)
Inductive event : Set := Node (n : Z) | Ref (n : Z).
Fixpoint events (j : json) : list event :=
  match j with
  | JArray l => flat_map events l
  | JDict nid kvs => (if 0 <? nid then [Node nid] else []) ++ flat_map (fun kv => events (snd kv)) kvs
  | JPtr n => [Ref n]
  | _ => []
  end.

(** Fields are declared in the order of their names. *)
Definition in_name_order (v : gval) : Prop :=
  (forall fs, In fs (structs v) -> keys_sorted (emitted_names fs)) /\ (forall m, In m (maps v) -> sm_ok m).

(** From the object [a] one gets to the object [b] by following pointers. *)
Inductive path (st : store) (a : addr) : addr -> Prop :=
| path_one x b : nth_error st a = Some x -> In b (pointers x) -> path st a b
| path_more b x c : path st a b -> nth_error st b = Some x -> In c (pointers x) -> path st a c.
Definition acyclic (st : store) : Prop := forall a, ~ path st a a.

(** The JSON values that a value holds have no references or node ids in them. *)
Definition holds_pure_json (v : gval) : Prop := forall j, In j (held_json v) -> node_ids j = [] /\ ref_ids j = [].

(** Every reference comes after the start of its node. *)
Definition nodes_first (j : json) : Prop :=
  forall before n after, events j = before ++ Ref n :: after -> In (Node n) before.
