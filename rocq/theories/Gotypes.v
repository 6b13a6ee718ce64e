(** Go values as reflection sees them, for Marshal (marshal.go) and Unmarshal
    (unmarshal.go). *)
From Verif Require Import Base Strconv SortedMap Json Heap.

(** reflect.Int, Int8, ..., Uint64; int and uint have 64 bits. *)
Inductive ikind : Set :=
| Signed (bits : Z)
| Unsigned (bits : Z).

(** The value of an integer of [bits] bits whose low bits are those of [z]:
    Go's integer conversions. *)
Definition wrap (k : ikind) (z : Z) : Z :=
  match k with
  | Unsigned b => z mod 2 ^ b
  | Signed b => (z + 2 ^ (b - 1)) mod 2 ^ b - 2 ^ (b - 1)
  end.
Definition in_kind (k : ikind) (z : Z) : bool :=
  match k with
  | Unsigned b => (0 <=? z) && (z <? 2 ^ b)
  | Signed b => (- 2 ^ (b - 1) <=? z) && (z <? 2 ^ (b - 1))
  end.

(** What reflectutils.SStructFieldInfo (not in this repository) says about a
    field: MarshalName(), Ignore, OmitEmpty, OmitZero, OmitFalse, ForceString
    and the deprecated-by tag. *)
Record finfo := {
  fi_name : bytes;
  fi_ignore : bool;
  fi_omit_empty : bool;
  fi_omit_zero : bool;
  fi_omit_false : bool;
  fi_force_string : bool;
  fi_deprecated_by : option bytes }.

(** A field with no tag but a name. *)
Definition plain (name : bytes) : finfo :=
  {| fi_name := name; fi_ignore := false; fi_omit_empty := false; fi_omit_zero := false;
     fi_omit_false := false; fi_force_string := false; fi_deprecated_by := None |}.

(** A Go value.  Structs are the flattened list of fields that
    reflectutils.FetchStructFieldValueSet returns (embedded structs merged).
    Maps have string keys and are listed in key order, in which marshalMap
    visits them (marshal.go:75-76).  A pointer is the address of a value in a
    store; pointers of different types have different addresses.  float32
    values are given as the float64 they widen to.  Not covered: types with
    non-string map keys, slices and maps that contain themselves other than
    through a pointer.  A [*time.Time] is a [GStd]: its method set has
    MarshalJSON, and std_json.go:108 excepts only [time.Time] by value. *)
Inductive gval : Type :=
| GBool (b : bool)
| GInt (k : ikind) (z : Z)
| GFloat (bit : Z) (f : fl)                  (* float32, float64 *)
| GString (s : bytes)
| GTri (t : option bool)                     (* tristate.TriState *)
| GTime (t : option bytes)                   (* time.Time: zero, or its ISO text *)
| GSlice (l : option (list gval))            (* None is nil *)
| GArray (l : list gval)
| GMap (m : option (list (bytes * gval)))    (* None is nil *)
| GStruct (fs : list (finfo * gval))
| GPtr (a : option addr)                     (* None is nil *)
| GIface (v : option gval)                   (* an interface and what it holds *)
| GJsonPtr (j : option json)                 (* *JSONDict, *JSONArray, *JSONBool, ... *)
| GJsonObj (j : option json)                 (* JSONObject *)
| GJsonVal (j : json)                        (* JSONDict, JSONArray, JSONBool, ... by value *)
| GStd (j : json)                            (* has MarshalJSON, whose text parses to j *)
| GOther.                                    (* chan, func, complex, uintptr, ... *)

(** The pointees. *)
Definition store := list gval.

Section GvalInd.
Variable P : gval -> Prop.
Hypothesis Hbool : forall b, P (GBool b).
Hypothesis Hint : forall k z, P (GInt k z).
Hypothesis Hfloat : forall bit f, P (GFloat bit f).
Hypothesis Hstring : forall s, P (GString s).
Hypothesis Htri : forall t, P (GTri t).
Hypothesis Htime : forall t, P (GTime t).
Hypothesis Hnilslice : P (GSlice None).
Hypothesis Hslice : forall l, Forall P l -> P (GSlice (Some l)).
Hypothesis Harray : forall l, Forall P l -> P (GArray l).
Hypothesis Hnilmap : P (GMap None).
Hypothesis Hmap : forall m, Forall (fun kv => P (snd kv)) m -> P (GMap (Some m)).
Hypothesis Hstruct : forall fs, Forall (fun fv => P (snd fv)) fs -> P (GStruct fs).
Hypothesis Hptr : forall a, P (GPtr a).
Hypothesis Hniliface : P (GIface None).
Hypothesis Hiface : forall v, P v -> P (GIface (Some v)).
Hypothesis Hjsonptr : forall j, P (GJsonPtr j).
Hypothesis Hjsonobj : forall j, P (GJsonObj j).
Hypothesis Hjsonval : forall j, P (GJsonVal j).
Hypothesis Hstd : forall j, P (GStd j).
Hypothesis Hother : P GOther.

Fixpoint gval_ind' (v : gval) : P v :=
  match v with
  | GBool b => Hbool b
  | GInt k z => Hint k z
  | GFloat bit f => Hfloat bit f
  | GString s => Hstring s
  | GTri t => Htri t
  | GTime t => Htime t
  | GSlice None => Hnilslice
  | GSlice (Some l) =>
      Hslice l ((fix go (l : list gval) : Forall P l :=
                   match l with [] => Forall_nil P | x :: l' => Forall_cons x (gval_ind' x) (go l') end) l)
  | GArray l =>
      Harray l ((fix go (l : list gval) : Forall P l :=
                   match l with [] => Forall_nil P | x :: l' => Forall_cons x (gval_ind' x) (go l') end) l)
  | GMap None => Hnilmap
  | GMap (Some m) =>
      Hmap m ((fix go (m : list (bytes * gval)) : Forall (fun kv => P (snd kv)) m :=
                 match m with [] => Forall_nil _ | x :: m' => Forall_cons x (gval_ind' (snd x)) (go m') end) m)
  | GStruct fs =>
      Hstruct fs ((fix go (fs : list (finfo * gval)) : Forall (fun fv => P (snd fv)) fs :=
                     match fs with [] => Forall_nil _ | x :: fs' => Forall_cons x (gval_ind' (snd x)) (go fs') end) fs)
  | GPtr a => Hptr a
  | GIface None => Hniliface
  | GIface (Some v) => Hiface v (gval_ind' v)
  | GJsonPtr j => Hjsonptr j
  | GJsonObj j => Hjsonobj j
  | GJsonVal j => Hjsonval j
  | GStd j => Hstd j
  | GOther => Hother
  end.
End GvalInd.
