(** What Marshal and MarshalAll must produce, as a relation between a Go
    object graph and a JSON value. *)
From Verif Require Import Base Strconv SortedMap Json SpecJson Printer Heap Gotypes Marshal SpecMarshal.

Definition has (i : option finfo) (p : finfo -> bool) : Prop := exists x, i = Some x /\ p x = true.

(** nil pointers, slices, maps and interfaces; an unset tristate. *)
Definition is_nil (v : gval) : Prop :=
  match v with
  | GSlice None | GMap None | GPtr None | GIface None | GJsonPtr None | GJsonObj None | GTri None => True
  | _ => False
  end.

(** What the omitempty flag is about, apart from structs. *)
Definition is_empty (v : gval) : Prop :=
  match v with
  | GString [] | GTime None | GSlice (Some []) | GArray [] | GMap (Some [])
  | GJsonVal (JDict _ []) | GJsonVal (JArray []) | GJsonVal (JString []) | GJsonVal (JBool false) | GJsonVal (JInt 0) => True
  | GJsonVal (JFloat x _) => fl_is_zero x = true
  | _ => False
  end.

Section Encoding.
Context (st : store).

(** The values that Marshal leaves out, where [i] is the field that holds the
    value ([None] for elements of slices and maps): nil; zero, false or empty
    with the matching flag on the field; a struct of which everything is left
    out, with omitempty; and pointers and interfaces that hold such a value. *)
Inductive dropped : option finfo -> gval -> Prop :=
| D_nil i v : is_nil v -> dropped i v
| D_int i k z : has i fi_omit_zero -> wrap (Signed 64) z = 0 -> dropped i (GInt k z)
| D_float i b x : has i fi_omit_zero -> fl_is_zero x = true -> dropped i (GFloat b x)
| D_bool i : has i fi_omit_false -> dropped i (GBool false)
| D_empty i v : has i fi_omit_empty -> is_empty v -> dropped i v
| D_struct i fs : has i fi_omit_empty ->
    (forall x w, In (x, w) fs -> fi_ignore x = false -> fi_deprecated_by x = None -> dropped (Some x) w) ->
    dropped i (GStruct fs)
| D_ptr i a x : nth_error st a = Some x -> dropped i x -> dropped i (GPtr (Some a))
| D_iface i x : dropped i x -> dropped i (GIface (Some x)).

(** [sub (i, v) (i', w)]: [w], held by field [i'], is part of [v], held by
    field [i]. *)
Inductive sub : option finfo * gval -> option finfo * gval -> Prop :=
| S_refl p : sub p p
| S_slice i l x p : In x l -> sub (None, x) p -> sub (i, GSlice (Some l)) p
| S_array i l x p : In x l -> sub (None, x) p -> sub (i, GArray l) p
| S_map i m k x p : In (k, x) m -> sub (None, x) p -> sub (i, GMap (Some m)) p
| S_field i fs y x p : In (y, x) fs -> fi_ignore y = false -> fi_deprecated_by y = None -> sub (Some y, x) p -> sub (i, GStruct fs) p
| S_ptr i a x p : nth_error st a = Some x -> sub (i, x) p -> sub (i, GPtr (Some a)) p
| S_iface i x p : sub (i, x) p -> sub (i, GIface (Some x)) p.

(** No part of [v] is left out by Marshal. *)
Definition full (i : option finfo) (v : gval) : Prop := forall i' w, sub (i, v) (i', w) -> ~ dropped i' w.

Definition forced (i : option finfo) : bool :=
  match i with Some x => fi_force_string x | None => false end.

(** The last pair with a key. *)
Fixpoint last_pair (ps : list (bytes * json)) (k : bytes) : option json :=
  match ps with
  | [] => None
  | (k', j) :: ps' => match last_pair ps' k with
                      | Some j' => Some j'
                      | None => if bseq k k' then Some j else None
                      end
  end.

(** NewDict: sorted keys, the last pair with a key counts. *)
Definition dict_of (ps kvs : list (bytes * json)) : Prop :=
  sm_ok kvs /\ forall k, sm_get kvs k = last_pair ps k.

(** The first pair with a key. *)
Fixpoint first_pair (ps : list (bytes * json)) (k : bytes) : option json :=
  match ps with
  | [] => None
  | (k', j) :: ps' => if bseq k' k then Some j else first_pair ps' k
  end.

(** The value under the deprecated name [k]: that of the field its chain ends
    at. *)
Definition alias (tag : bytes -> option bytes) (ps : list (bytes * json)) (k : bytes) (j : json) : Prop :=
  tag k <> None /\ exists e, ends_at tag k e /\ first_pair ps e = Some j.

(** The dict of a struct with these tags whose fields gave these pairs. *)
Definition struct_dict (tag : bytes -> option bytes) (ps kvs : list (bytes * json)) : Prop :=
  sm_ok kvs /\
  forall k j, sm_get kvs k = Some j <-> alias tag ps k j \/ (~ (exists j', alias tag ps k j') /\ last_pair ps k = Some j).

(** [f] says which object each node id stands for. *)
Context (omit : bool) (f : Z -> option addr).

(** A dict may carry the node id of a pointer that was followed to reach its
    object, or none. *)
Definition owned (own : list addr) (n : Z) : Prop := n = 0 \/ exists a, f n = Some a /\ In a own.

(** [encodes own i v j]: [v], held by field [i] and reached by following the
    pointers [own], is not left out and is represented by [j]. *)
Inductive encodes : list addr -> option finfo -> gval -> json -> Prop :=
| E_nil own i v : is_nil v -> encodes own i v JNull
| E_bool own i b : encodes own i (GBool b) (if forced i then JString (if b then txt_true else txt_false) else JBool b)
| E_int own i k z : encodes own i (GInt k z) (let n := wrap (Signed 64) z in if forced i then JString (format_int n) else JInt n)
| E_float own i bit x : encodes own i (GFloat bit x) (if forced i then JString (format_f6 x) else JFloat x bit)
| E_string own i s : encodes own i (GString s) (JString s)
| E_tri own i b : encodes own i (GTri (Some b)) (JBool b)
| E_time own i t : encodes own i (GTime t) (JString (match t with Some s => s | None => [] end))
| E_slice own i l js : forced i = false -> enc_elems l js -> encodes own i (GSlice (Some l)) (JArray js)
| E_array own i l js : forced i = false -> enc_elems l js -> encodes own i (GArray l) (JArray js)
| E_map own i m n ps kvs : forced i = false -> enc_members m ps -> dict_of ps kvs -> owned own n ->
    encodes own i (GMap (Some m)) (JDict n kvs)
| E_struct own i fs n ps kvs : forced i = false -> enc_fields fs ps -> struct_dict (tag_of fs) ps kvs -> owned own n ->
    encodes own i (GStruct fs) (JDict n kvs)
| E_text own i v j : forced i = true -> ~ is_nil v ->
    match v with GSlice _ | GArray _ | GMap _ | GStruct _ => True | _ => False end ->
    encodes [] None v j -> encodes own i v (JString (String_ j))
| E_ref own i a n : f n = Some a -> encodes own i (GPtr (Some a)) (JPtr n)
| E_ptr own i a x j : nth_error st a = Some x -> encodes (a :: own) i x j -> encodes own i (GPtr (Some a)) j
| E_iface own i x j : encodes own i x j -> encodes own i (GIface (Some x)) j
| E_json_ptr own i j : encodes own i (GJsonPtr (Some j)) j
| E_json_obj own i j : encodes own i (GJsonObj (Some j)) j
| E_json_val own i j : encodes own i (GJsonVal j) j
| E_std own i j : encodes own i (GStd j) j
| E_other own i : encodes own i GOther JNull

with enc_elems : list gval -> list json -> Prop :=
| El_nil : enc_elems [] []
| El_drop v l js : omit = true -> dropped None v -> enc_elems l js -> enc_elems (v :: l) js
| El_keep v l j js : ~ (omit = true /\ dropped None v) -> encodes [] None v j -> enc_elems l js -> enc_elems (v :: l) (j :: js)

with enc_members : list (bytes * gval) -> list (bytes * json) -> Prop :=
| Em_nil : enc_members [] []
| Em_drop k v m ps : omit = true -> dropped None v -> enc_members m ps -> enc_members ((k, v) :: m) ps
| Em_keep k v m j ps : ~ (omit = true /\ dropped None v) -> encodes [] None v j -> enc_members m ps ->
    enc_members ((k, v) :: m) ((k, j) :: ps)

with enc_fields : list (finfo * gval) -> list (bytes * json) -> Prop :=
| Ef_nil : enc_fields [] []
| Ef_ignored x v fs ps : fi_ignore x = true -> enc_fields fs ps -> enc_fields ((x, v) :: fs) ps
| Ef_deprecated x v fs ps : fi_deprecated_by x <> None -> enc_fields fs ps -> enc_fields ((x, v) :: fs) ps
| Ef_drop x v fs ps : omit = true -> dropped (Some x) v -> enc_fields fs ps -> enc_fields ((x, v) :: fs) ps
| Ef_keep x v fs j ps : fi_ignore x = false -> fi_deprecated_by x = None -> ~ (omit = true /\ dropped (Some x) v) ->
    encodes [] (Some x) v j -> enc_fields fs ps -> enc_fields ((x, v) :: fs) ((fi_name x, j) :: ps).
End Encoding.

(** A nil at the end of pointers and interfaces. *)
Inductive leads_to_nil (st : store) : gval -> Prop :=
| N_nil v : is_nil v -> leads_to_nil st v
| N_ptr a x : nth_error st a = Some x -> leads_to_nil st x -> leads_to_nil st (GPtr (Some a))
| N_iface x : leads_to_nil st x -> leads_to_nil st (GIface (Some x)).
