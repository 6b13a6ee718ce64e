(** Model of Unmarshal: unmarshal.go, unmarshal_session.go, std_json.go:25-89,
    jsonpointer.go:75-77.

    Every Go variable that reflection can set has an address: fields, array and
    slice elements are variables of their own.  What the target's types and
    fields are comes from package reflect and from yunion packages that are not
    in /repo; see the parameters below. *)
From Verif Require Import Base Strconv SortedMap Json Printer Access JErrors Heap Gotypes Marshal.

(** ** Types *)

(** JSONDict, JSONArray, JSONString, JSONInt, JSONFloat, JSONBool (reflect.go:24-37) *)
Inductive jkind : Set := KDict | KArray | KString | KInt | KFloat | KBool.

(** The types of targets.  A struct type has a name and the flat list of fields
    of reflectutils.FetchStructFieldValueSet; inside pointer, slice and map
    types struct types are given by their name alone, so that types may be
    recursive.  Not covered: embedded struct pointers, interface types that
    implement gotypes.ISerializable other than JSONObject, recursive pointer
    types such as type P *P. *)
(** What gotypes.NewSerializable makes for an interface type (unmarshal.go:508):
    nothing is registered for it, what is registered gives nil, or a pointer to
    a new struct of this name. *)
Inductive factory : Type := NoFactory | NilFactory | Makes (name : nat).

Inductive gty : Type :=
| TBool
| TInt (k : ikind)
| TFloat (bit : Z)
| TString
| TTri                                       (* tristate.TriState, a string type *)
| TTime                                      (* time.Time *)
| TSlice (t : gty)
| TArray (n : nat) (t : gty)
| TMap (t : gty)                             (* keys of kind string *)
| TMapOther (t : gty)                        (* keys of any other kind *)
| TPtr (t : gty)
| TStruct (name : nat) (fs : list (finfo * gty))
| TNamed (name : nat)                        (* the struct type of that name *)
| TIface                                     (* interface{} *)
| TMethods                                   (* an interface with methods *)
| TJsonObj                                   (* JSONObject *)
| TJsonPtr (k : jkind)                       (* *JSONDict, ... *)
| TJsonVal (k : jkind)                       (* JSONDict, ... *)
| TStd                                       (* its pointer has UnmarshalJSON *)
| TOther                                     (* chan, func, complex, ... *)
| TSer (name : nat) (f : factory).           (* an interface with the methods of gotypes.ISerializable *)

(** ** Variables *)

(** What interface{} variables get: unmarshal.go:140, 211, 291, 399, 449 and references. *)
Inductive dyn : Type :=
| DynBool (b : bool)
| DynInt (z : Z)
| DynFloat (f : fl)
| DynString (s : bytes)
| DynJsons (l : list json)                   (* []JSONObject *)
| DynPtr (a : addr) (t : gty).               (* a pointer to a variable of type t *)

Inductive vcell : Type :=
| VBool (b : bool)
| VInt (z : Z)
| VFloat (f : fl)
| VString (s : bytes)                        (* also TriState *)
| VTime (t : option bytes)
| VSlice (s : option (list addr * nat))      (* the variables up to the capacity, and the length *)
| VArray (l : list addr)
| VMap (m : option addr)                     (* the address of a VMapData *)
| VMapData (kvs : smap addr)
| VPtr (a : option addr)
| VStruct (l : list addr)
| VIface (d : option dyn)
| VJson (j : option json)                    (* the value, not the identity, of a JSONObject *)
| VStd (s : option bytes)                    (* the text it was given *)
| VOther.

Definition mem := list vcell.
Definition mwrite : mem -> addr -> vcell -> mem :=
  fix go m a c :=
    match m, a with
    | [], _ => []
    | _ :: m', O => c :: m'
    | x :: m', S a' => x :: go m' a' c
    end.

(** ** The session, unmarshal_session.go:21-35; nodeValue is the pointer to a
    variable of some type. *)
Record nodeval := { nv_value : option (addr * gty); nv_targets : list (addr * gty) }.
Definition session := list (Z * nodeval).
Fixpoint find_node (s : session) (n : Z) : option nodeval :=
  match s with
  | [] => None
  | (k, v) :: s' => if k =? n then Some v else find_node s' n
  end.
Definition put_node (s : session) (n : Z) (v : nodeval) : session := (n, v) :: s.

Record ustate := { u_mem : mem; u_sess : session }.
Definition with_mem (st : ustate) (m : mem) : ustate := {| u_mem := m; u_sess := u_sess st |}.

(** ** Outcomes *)

(** errors.go:21-36 and the errors of strconv and UnmarshalJSON;
    [EMany]: errors.NewAggregate with the keys of the members. *)
Inductive uerr : Type :=
| EMismatch | EArrayLength | EMapKey | EInterface | ENumber | EStd
| EFactory                                   (* of gotypes.NewSerializable *)
| EMany (l : list (bytes * uerr)).

(** [UPanic]: a Go run-time panic.  [UFuel]: deeper than the model's recursion
    bound, never reached with enough of it. *)
Inductive ures (A : Type) : Type :=
| UOk (st : ustate) (r : A)
| UPanic
| UFuel.
Arguments UOk {A} st r.
Arguments UPanic {A}.
Arguments UFuel {A}.

Definition ubind {A C} (r : ures A) (k : ustate -> A -> ures C) : ures C :=
  match r with UOk st a => k st a | UPanic => UPanic | UFuel => UFuel end.

(** int64(f): truncation; out of range and NaN give what amd64 gives. *)
Definition f2i (f : fl) : Z :=
  match f with
  | FFin neg m e =>
      let a := if 0 <=? e then m * 2 ^ e else m / 2 ^ (- e) in
      let z := if neg then - a else a in
      if in_int64 z then z else int64_min
  | _ => int64_min
  end.

(** float64(x) for a float32 x *)
Definition to_f64 (f : fl) : fl :=
  match f with
  | FFin neg m e => if m =? 0 then fzero F64 neg
                    else match round_bin F64 m e with
                         | Some (m', e') => FFin neg m' e'
                         | None => FInf neg
                         end
  | _ => f
  end.

(** reflect.Value.SetFloat; a float32 is given as the float64 it widens to. *)
Definition set_float (bit : Z) (f : fl) : fl := if bit =? 32 then to_f64 (to_f32 f) else f.

(** ** Zero values, reflect.New *)

(** The zero value of a JSON type *)
Definition zero_json (k : jkind) : json :=
  match k with
  | KDict => JDict 0 [] | KArray => JArray [] | KString => JString [] | KInt => JInt 0
  | KFloat => JFloat (fzero F64 false) 0 | KBool => JBool false
  end.

(** The cell of a variable that has no variables inside *)
Definition zero_cell (t : gty) : vcell :=
  match t with
  | TBool => VBool false
  | TInt _ => VInt 0
  | TFloat bit => VFloat (fzero F64 false)
  | TString | TTri => VString []
  | TTime => VTime None
  | TSlice _ => VSlice None
  | TMap _ | TMapOther _ => VMap None
  | TPtr _ => VPtr None
  | TIface | TMethods | TSer _ _ => VIface None
  | TJsonObj | TJsonPtr _ => VJson None
  | TJsonVal k => VJson (Some (zero_json k))
  | TStd => VStd None
  | TArray _ _ | TStruct _ _ | TNamed _ | TOther => VOther
  end.

(** n times, in turn *)
Fixpoint times (n : nat) (f : mem -> mem * addr) (m : mem) : mem * list addr :=
  match n with
  | O => (m, [])
  | S n' => let '(m1, a) := f m in let '(m2, l) := times n' f m1 in (m2, a :: l)
  end.

(** A new variable with the zero value of a type *)
Fixpoint zalloc (t : gty) (m : mem) {struct t} : mem * addr :=
  match t with
  | TArray n t' => let '(m1, l) := times n (zalloc t') m in (m1 ++ [VArray l], length m1)
  | TStruct _ fs =>
      let '(m1, l) := (fix go (fs : list (finfo * gty)) (m : mem) : mem * list addr :=
                         match fs with
                         | [] => (m, [])
                         | (_, t') :: fs' => let '(m1, a) := zalloc t' m in let '(m2, l) := go fs' m1 in (m2, a :: l)
                         end) fs m in
      (m1 ++ [VStruct l], length m1)
  | _ => (m ++ [zero_cell t], length m)
  end.

(** val.Set(zero), unmarshal.go:74-80 *)
Fixpoint set_zero (t : gty) (a : addr) (m : mem) {struct t} : mem :=
  match t with
  | TArray _ t' =>
      match nth_error m a with
      | Some (VArray l) => fold_left (fun m x => set_zero t' x m) l m
      | _ => m
      end
  | TStruct _ fs =>
      match nth_error m a with
      | Some (VStruct l) =>
          (fix go (fs : list (finfo * gty)) (l : list addr) (m : mem) : mem :=
             match fs, l with
             | (_, t') :: fs', x :: l' => go fs' l' (set_zero t' x m)
             | _, _ => m
             end) fs l m
      | _ => m
      end
  | _ => mwrite m a (zero_cell t)
  end.

(** A copy of a variable: what SetMapIndex stores, unmarshal.go:572 *)
Fixpoint vcopy (t : gty) (a : addr) (m : mem) {struct t} : mem * addr :=
  match t with
  | TArray _ t' =>
      match nth_error m a with
      | Some (VArray l) =>
          let '(m1, l') := (fix go (l : list addr) (m : mem) : mem * list addr :=
                              match l with
                              | [] => (m, [])
                              | x :: l1 => let '(m1, y) := vcopy t' x m in let '(m2, r) := go l1 m1 in (m2, y :: r)
                              end) l m in
          (m1 ++ [VArray l'], length m1)
      | _ => (m ++ [VOther], length m)
      end
  | TStruct _ fs =>
      match nth_error m a with
      | Some (VStruct l) =>
          let '(m1, l') := (fix go (fs : list (finfo * gty)) (l : list addr) (m : mem) : mem * list addr :=
                              match fs, l with
                              | (_, t') :: fs', x :: l1 => let '(m1, y) := vcopy t' x m in let '(m2, r) := go fs' l1 m1 in (m2, y :: r)
                              | _, _ => (m, [])
                              end) fs l m in
          (m1 ++ [VStruct l'], length m1)
      | _ => (m ++ [VOther], length m)
      end
  | _ => (m ++ [match nth_error m a with Some c => c | None => VOther end], length m)
  end.

Definition jkind_eqb (a b : jkind) : bool :=
  match a, b with
  | KDict, KDict | KArray, KArray | KString, KString | KInt, KInt | KFloat, KFloat | KBool, KBool => true
  | _, _ => false
  end.
Definition ikind_eqb (a b : ikind) : bool :=
  match a, b with
  | Signed x, Signed y | Unsigned x, Unsigned y => x =? y
  | _, _ => false
  end.

(** Identity of types; struct types and interfaces are identified by name. *)
Fixpoint ty_eqb (a b : gty) : bool :=
  match a, b with
  | TBool, TBool | TString, TString | TTri, TTri | TTime, TTime | TIface, TIface | TMethods, TMethods
  | TJsonObj, TJsonObj | TStd, TStd | TOther, TOther => true
  | TInt k, TInt k' => ikind_eqb k k'
  | TFloat x, TFloat y => x =? y
  | TSlice t, TSlice t' | TMap t, TMap t' | TMapOther t, TMapOther t' | TPtr t, TPtr t' => ty_eqb t t'
  | TArray n t, TArray n' t' => Nat.eqb n n' && ty_eqb t t'
  | (TStruct n _ | TNamed n), (TStruct m _ | TNamed m) => Nat.eqb n m
  | TSer n _, TSer m _ => Nat.eqb n m
  | TJsonPtr k, TJsonPtr k' | TJsonVal k, TJsonVal k' => jkind_eqb k k'
  | _, _ => false
  end.

Section Unmarshal.

(** The struct types by name. *)
Context (env : nat -> list (finfo * gty)).
(** The fields of a struct that a member name selects: GetStructFieldIndexesMap
    and then GetStructFieldIndexes2 of reflectutils (unmarshal.go:586-594). *)
Context (locate : list (finfo * gty) -> bytes -> list nat).
(** The regular expressions of regutils (currency.go), utils.ToBool,
    timeutils.ParseTimeStr (the time it returns), time.Time.UnmarshalJSON, the
    UnmarshalJSON of other types ([false]: an error). *)
Context (match_us match_eu : bytes -> bool) (to_bool : bytes -> bool)
  (parse_time : bytes -> option bytes) (time_json : bytes -> option (option bytes)) (std_ok : bytes -> bool).

Definition resolve (t : gty) : gty := match t with TNamed n => TStruct n (env n) | _ => t end.

(** ** Setting and saving node values *)

(** targetValue.Set(nodeValue): the pointer to variable [b] of type [tb] into
    the variable [a] of type [t]; [None]: reflect panics.  An interface with
    methods is taken not to be implemented, one with those of ISerializable only
    by what is made for it. *)
Definition set_pointer (m : mem) (a : addr) (t : gty) (b : addr) (tb : gty) : option mem :=
  match t with
  | TPtr t' => if ty_eqb t' tb then Some (mwrite m a (VPtr (Some b))) else None
  | TIface => Some (mwrite m a (VIface (Some (DynPtr b tb))))
  | TSer _ (Makes n) => if ty_eqb (TNamed n) tb then Some (mwrite m a (VIface (Some (DynPtr b tb)))) else None
  | _ => None
  end.

Fixpoint set_targets (m : mem) (l : list (addr * gty)) (b : addr) (tb : gty) : option mem :=
  match l with
  | [] => Some m
  | (a, t) :: l' => match set_pointer m a t b tb with Some m1 => set_targets m1 l' b tb | None => None end
  end.

(** saveNodeValue, unmarshal_session.go:37-51 *)
Definition save_node_value (st : ustate) (n : Z) (b : addr) (tb : gty) : ures unit :=
  match find_node (u_sess st) n with
  | None => UOk {| u_mem := u_mem st; u_sess := put_node (u_sess st) n {| nv_value := Some (b, tb); nv_targets := [] |} |} tt
  | Some nv =>
      match set_targets (u_mem st) (nv_targets nv) b tb with
      | Some m => UOk {| u_mem := m; u_sess := put_node (u_sess st) n {| nv_value := Some (b, tb); nv_targets := [] |} |} tt
      | None => UPanic
      end
  end.

(** setPointerValue, unmarshal_session.go:53-67 *)
Definition set_pointer_value (st : ustate) (n : Z) (a : addr) (t : gty) : ures (option uerr) :=
  match find_node (u_sess st) n with
  | Some {| nv_value := Some (b, tb) |} =>
      match set_pointer (u_mem st) a t b tb with
      | Some m => UOk (with_mem st m) None
      | None => UPanic
      end
  | Some nv => UOk {| u_mem := u_mem st;
                      u_sess := put_node (u_sess st) n {| nv_value := None; nv_targets := nv_targets nv ++ [(a, t)] |} |} None
  | None => UOk {| u_mem := u_mem st;
                   u_sess := put_node (u_sess st) n {| nv_value := None; nv_targets := [(a, t)] |} |} None
  end.

(** ** UnmarshalJSON *)

(** indirectStdUnmarshaler, std_json.go:37-89: allocates what the nil pointers
    on the way point to, and finds the variable whose type has UnmarshalJSON.
    Lines 51-58, which look into an interface{} that holds a pointer to a
    pointer, are left to UnmIface.v: where there is none, the two agree
    (C73_agrees). *)
Fixpoint indirect (t : gty) (a : addr) (m : mem) {struct t} : mem * option addr :=
  match t with
  | TStd | TTime => (m, Some a)
  | TPtr t' =>
      match nth_error m a with
      | Some (VPtr (Some b)) => indirect t' b m
      | _ => let '(m1, b) := zalloc (resolve t') m in indirect t' b (mwrite m1 a (VPtr (Some b)))
      end
  | TJsonPtr k =>
      match nth_error m a with
      | Some (VJson (Some _)) => (m, None)
      | _ => (mwrite m a (VJson (Some (zero_json k))), None)
      end
  | _ => (m, None)
  end.

(** u.UnmarshalJSON(text), std_json.go:28 *)
Definition call_std (m : mem) (a : addr) (text : bytes) : mem * option uerr :=
  match nth_error m a with
  | Some (VTime _) => match time_json text with
                      | Some t => (mwrite m a (VTime t), None)
                      | None => (m, Some EStd)
                      end
  | _ => if std_ok text then (mwrite m a (VStd (Some text)), None) else (m, Some EStd)
  end.

(** ** Scalars; what is left to do for a pointer is done by the caller *)

(** The outcome of the two switches of a scalar's _unmarshalValue *)
Inductive step : Type :=
| Write (c : vcell)                          (* val.Set... *)
| Keep                                       (* nothing happens *)
| Into (t : gty)                             (* val.Elem(), of this type *)
| First (t : gty)                            (* a slice is cut or made to length 1; its element *)
| Fail (e : uerr)
| Panic.

(** JSONInt._unmarshalValue, unmarshal.go:86-146 *)
Definition step_int (z : Z) (t : gty) : step :=
  match t with
  | TJsonVal (KInt | KString) => Keep
  | TJsonPtr KInt | TJsonObj => Write (VJson (Some (JInt z)))
  | TJsonPtr KString => Write (VJson (Some (JString (format_int z))))
  | TJsonVal _ | TJsonPtr _ => Fail EMismatch
  | TInt (Signed b) => Write (VInt (wrap (Signed b) z))
  | TInt (Unsigned b) => Write (VInt (wrap (Unsigned b) (wrap (Unsigned 64) z)))
  | TFloat bit => Write (VFloat (set_float bit (float_of_int z)))
  | TBool => Write (VBool (negb (z =? 0)))
  | TString | TTri => Write (VString (format_int z))
  | TPtr t' => Into t'
  | TIface => Write (VIface (Some (DynInt z)))
  | TMethods | TSer _ _ => Panic
  | _ => Fail EMismatch
  end.

(** JSONBool._unmarshalValue, unmarshal.go:152-217 *)
Definition step_bool (x : bool) (t : gty) : step :=
  match t with
  | TJsonVal (KBool | KString) => Keep
  | TJsonPtr KBool | TJsonObj => Write (VJson (Some (JBool x)))
  | TJsonPtr KString => Write (VJson (Some (JString (if x then txt_true else txt_false))))
  | TJsonVal _ | TJsonPtr _ => Fail EMismatch
  | TInt (Signed b) => Write (VInt (if x then wrap (Signed b) 1 else 0))
  | TInt (Unsigned _) => Panic                  (* SetInt on an unsigned kind *)
  | TFloat bit => Write (VFloat (set_float bit (float_of_int (if x then 1 else 0))))
  | TBool => Write (VBool x)
  | TString | TTri => Write (VString (if x then txt_true else txt_false))
  | TPtr t' => Into t'
  | TIface => Write (VIface (Some (DynBool x)))
  | TMethods | TSer _ _ => Panic
  | _ => Fail EMismatch
  end.

(** JSONFloat._unmarshalValue, unmarshal.go:223-297 *)
Definition step_float (f : fl) (bit0 : Z) (t : gty) : step :=
  match t with
  | TJsonVal (KFloat | KString | KInt | KBool) => Keep
  | TJsonPtr KFloat | TJsonObj => Write (VJson (Some (JFloat f bit0)))
  | TJsonPtr KString => Write (VJson (Some (JString (format_f6 f))))
  | TJsonPtr KInt => Write (VJson (Some (JInt (f2i f))))
  | TJsonVal _ | TJsonPtr _ => Fail EMismatch
  | TInt (Signed b) => Write (VInt (wrap (Signed b) (f2i f)))
  | TInt (Unsigned _) => Panic                  (* SetInt on an unsigned kind *)
  | TFloat bit => Write (VFloat (set_float bit f))
  | TBool => Write (VBool (negb (fl_is_zero f)))
  | TString | TTri => Write (VString (format_f6 f))
  | TPtr t' => Into t'
  | TIface => Write (VIface (Some (DynFloat f)))
  | TMethods | TSer _ _ => Panic
  | _ => Fail EMismatch
  end.

(** strings.ToLower(s) is one of the words of unmarshal.go:331, 341 *)
Definition says_yes (s : bytes) : bool :=
  let l := lowers s in bseq l w_true || bseq l w_yes || bseq l w_on || bseq l ["1"%byte].

(** JSONString._unmarshalValue, unmarshal.go:306-414 *)
Definition step_string (s : bytes) (t : gty) : step :=
  match t with
  | TJsonVal (KString | KBool) => Keep
  | TJsonPtr KString | TJsonObj => Write (VJson (Some (JString s)))
  | TTime => Write (VTime (match s with [] => None | _ => parse_time s end))
  | TJsonPtr KBool => Write (VJson (Some (JBool (says_yes s))))
  | TJsonVal _ | TJsonPtr _ => Fail EMismatch
  | TInt (Signed b) =>
      match s with
      | [] => Keep
      | _ => match parse_int (normalize_currency match_us match_eu s) with
             | Some z => Write (VInt (wrap (Signed b) z))
             | None => Fail ENumber
             end
      end
  | TInt (Unsigned b) =>
      match s with
      | [] => Keep
      | _ => match parse_uint (normalize_currency match_us match_eu s) with
             | Some z => Write (VInt (wrap (Unsigned b) z))
             | None => Fail ENumber
             end
      end
  | TFloat bit =>
      match s with
      | [] => Keep
      | _ => match parse_float F64 (normalize_currency match_us match_eu s) with
             | Some f => Write (VFloat (set_float bit f))
             | None => Fail ENumber
             end
      end
  | TBool => Write (VBool (to_bool s))
  | TString | TTri => Write (VString s)
  | TPtr t' => Into t'
  | TIface => Write (VIface (Some (DynString s)))
  | TMethods | TSer _ _ => Panic
  | TSlice t' => First t'
  | _ => Fail EMismatch
  end.

Definition step_scalar (j : json) (t : gty) : step :=
  match j with
  | JInt z => step_int z t
  | JBool b => step_bool b t
  | JFloat f bit => step_float f bit t
  | JString s => step_string s t
  | _ => Panic                                  (* not called *)
  end.

(** ** Arrays and dicts *)

(** reflect.Value.Kind() is Array or Slice; Struct or Map *)
Definition is_list_kind (t : gty) : bool := match t with TSlice _ | TArray _ _ => true | _ => false end.
Definition is_dict_kind (t : gty) : bool :=
  match t with TStruct _ _ | TNamed _ | TMap _ | TMapOther _ | TJsonVal _ | TTime | TStd => true | _ => false end.

(** The variables of the first [n] elements of a slice that is given length
    [n], unmarshal.go:456-463, 402-408; [make]: a new slice is made also if
    the old one is nil. *)
Definition resize (n : nat) (t : gty) (a : addr) (m : mem) (make_nil : bool) : mem * list addr :=
  let fresh := let '(m1, l) := times n (zalloc t) m in (mwrite m1 a (VSlice (Some (l, n))), l) in
  match nth_error m a with
  | Some (VSlice (Some (l, _))) =>
      if (length l <? n)%nat then fresh else (mwrite m a (VSlice (Some (l, n))), firstn n l)
  | _ => if make_nil || (0 <? n)%nat then fresh else (m, [])
  end.

(** The map behind a map variable, made if it is nil, unmarshal.go:550-553 *)
Definition map_data (a : addr) (m : mem) : mem * addr :=
  match nth_error m a with
  | Some (VMap (Some d)) => (m, d)
  | _ => (mwrite (m ++ [VMapData []]) a (VMap (Some (length m))), length m)
  end.

Definition fields_of (a : addr) (m : mem) : list addr :=
  match nth_error m a with Some (VStruct l) => l | _ => [] end.
Definition elems_of (a : addr) (m : mem) : list addr :=
  match nth_error m a with Some (VArray l) => l | _ => [] end.

Section Loops.
Context (un : ustate -> gty -> addr -> json -> ures (option uerr)).

(** unmarshal.go:465-470 *)
Fixpoint un_elems (st : ustate) (t : gty) (l : list addr) (js : list json) : ures (option uerr) :=
  match js, l with
  | j :: js', a :: l' =>
      ubind (un st t a j) (fun st1 e => match e with
                                        | Some _ => UOk st1 e
                                        | None => un_elems st1 t l' js'
                                        end)
  | [], _ => UOk st None
  | _ :: _, [] => UPanic                        (* index out of range: not reached *)
  end.

(** unmarshal.go:554-574 *)
Fixpoint un_members (st : ustate) (t : gty) (d : addr) (kvs : list (bytes * json)) : ures (option uerr) :=
  match kvs with
  | [] => UOk st None
  | (k, j) :: kvs' =>
      let '(m1, tmp) := zalloc t (u_mem st) in
      ubind (un (with_mem st m1) t tmp j) (fun st1 e =>
        match e with
        | Some _ => UOk st1 e
        | None =>
            let '(m2, b) := vcopy t tmp (u_mem st1) in
            let m3 := match nth_error m2 d with
                      | Some (VMapData old) => mwrite m2 d (VMapData (sm_add old k b))
                      | _ => m2
                      end in
            un_members (with_mem st1 m3) t d kvs'
        end)
  end.

(** setStructFieldAt, unmarshal.go:577-612; [visited] is changed in place in
    Go, so it is returned. *)
Fixpoint set_field (fuel : nat) (st : ustate) (visited : list bytes) (fs : list (finfo * gty)) (l : list addr)
    (key : bytes) (j : json) : ures (list bytes * option uerr) :=
  match fuel with
  | O => UFuel
  | S n =>
      if in_strings key visited then UOk st (visited, None)
      else
        (fix go (idx : list nat) (st : ustate) (visited : list bytes) : ures (list bytes * option uerr) :=
           match idx with
           | [] => UOk st (visited, None)
           | i :: idx' =>
               match nth_error fs i, nth_error l i with
               | Some (info, t), Some a =>
                   ubind (un st t a j) (fun st1 e =>
                     match e with
                     | Some _ => UOk st1 (visited, e)
                     | None =>
                         match fi_deprecated_by info with
                         | None => go idx' st1 visited
                         | Some other =>
                             ubind (set_field n st1 visited fs l other j) (fun st2 r =>
                               match snd r with
                               | Some _ => UOk st2 r
                               | None => go idx' st2 (fst r)
                               end)
                         end
                     end)
               | _, _ => UPanic                 (* index out of range: not reached *)
               end
           end) (locate fs key) st (key :: visited)
  end.

(** unmarshal.go:614-633; the AfterUnmarshal methods of the caller's types
    (lines 627, 635-653) are left out here; they are in UnmHook.v and Hooks.v. *)
Fixpoint un_fields (st : ustate) (fs : list (finfo * gty)) (l : list addr) (kvs : list (bytes * json))
    (errs : list (bytes * uerr)) : ures (option uerr) :=
  match kvs with
  | [] => UOk st (match errs with [] => None | _ => Some (EMany errs) end)
  | (k, j) :: kvs' =>
      ubind (set_field (S (S (length fs))) st [] fs l k j) (fun st1 r =>
        un_fields st1 fs l kvs' (match snd r with Some e => errs ++ [(k, e)] | None => errs end))
  end.

(** A dict into an interface with the methods of ISerializable,
    unmarshal.go:507-529; line 513 panics, as the data of a dict cannot be
    assigned to such a variable. *)
Definition un_serial (st : ustate) (f : factory) (a : addr) (j : json) : ures (option uerr) :=
  match f with
  | NoFactory => UOk st (Some EFactory)
  | NilFactory => UPanic
  | Makes name =>
      let s := TStruct name (env name) in
      let '(m1, b) := zalloc s (u_mem st) in
      ubind (un (with_mem st m1) s b j) (fun st1 e =>
        match e with
        | Some _ => UOk st1 e
        | None => UOk (with_mem st1 (mwrite (u_mem st1) a (VIface (Some (DynPtr b s))))) None
        end)
  end.
End Loops.

(** unmarshalValue of every kind: unmarshal.go:74-84, 148-150, 219-221,
    299-304, 416-418, 477-482, the arrays' and dicts' _unmarshalValue,
    420-547, and tryStdUnmarshal, std_json.go:25-31. *)
Fixpoint unm (fuel : nat) (st : ustate) (t : gty) (a : addr) (j : json) {struct fuel} : ures (option uerr) :=
  match fuel with
  | O => UFuel
  | S n =>
      let std := fun (st : ustate) (k : ustate -> ures (option uerr)) =>
        let '(m1, u) := indirect t a (u_mem st) in
        match u with
        | Some b => let '(m2, e) := call_std m1 b (String_ j) in UOk (with_mem st m2) e
        | None => k (with_mem st m1)
        end in
      let elem := fun (st : ustate) (t' : gty) =>
        match nth_error (u_mem st) a with
        | Some (VPtr (Some b)) => unm n st (resolve t') b j
        | _ => UPanic                           (* not reached: indirect has allocated it *)
        end in
      let scalar := fun (st : ustate) =>
        match step_scalar j t with
        | Write c => UOk (with_mem st (mwrite (u_mem st) a c)) None
        | Keep => UOk st None
        | Into t' => elem st t'
        | First t' =>
            let '(m1, l) := resize 1 (resolve t') a (u_mem st) false in
            match l with
            | b :: _ => unm n (with_mem st m1) (resolve t') b j
            | [] => UPanic                      (* not reached *)
            end
        | Fail e => UOk st (Some e)
        | Panic => UPanic
        end in
      match j with
      | JNull => UOk (with_mem st (set_zero t a (u_mem st))) None
      | JPtr p => set_pointer_value st p a t
      | JInt _ | JBool _ | JFloat _ _ => std st scalar
      | JString _ => match t with TTime => scalar st | _ => std st scalar end
      | JArray l =>
          std st (fun st =>
            match t with
            | TJsonVal KArray =>
                match nth_error (u_mem st) a with
                | Some (VJson (Some (JArray old))) => UOk (with_mem st (mwrite (u_mem st) a (VJson (Some (JArray (array_add old l)))))) None
                | _ => UPanic                   (* not reached *)
                end
            | TJsonPtr KArray | TJsonObj => UOk (with_mem st (mwrite (u_mem st) a (VJson (Some j)))) None
            | TJsonVal _ | TJsonPtr _ => UOk st (Some EMismatch)
            | TString | TTri => UOk (with_mem st (mwrite (u_mem st) a (VString (String_ j)))) None
            | TPtr t' => if is_list_kind t' then elem st t' else UOk st (Some EMismatch)
            | TIface => UOk (with_mem st (mwrite (u_mem st) a (VIface (Some (DynJsons l))))) None
            | TMethods | TSer _ _ => UPanic
            | TArray size t' =>
                if negb (Nat.eqb size (length l)) then UOk st (Some EArrayLength)
                else un_elems (unm n) st t' (elems_of a (u_mem st)) l
            | TSlice t' =>
                let '(m1, vars) := resize (length l) (resolve t') a (u_mem st) true in
                un_elems (unm n) (with_mem st m1) (resolve t') vars l
            | _ => UOk st (Some EMismatch)
            end)
      | JDict nid kvs =>
          ubind (if 0 <? nid then save_node_value st nid a t else UOk st tt) (fun st _ =>
          std st (fun st =>
            match t with
            | TJsonVal KDict =>
                match nth_error (u_mem st) a with
                | Some (VJson (Some (JDict id old))) => UOk (with_mem st (mwrite (u_mem st) a (VJson (Some (JDict id (dict_update old j)))))) None
                | _ => UPanic                   (* not reached *)
                end
            | TJsonPtr KDict | TJsonObj => UOk (with_mem st (mwrite (u_mem st) a (VJson (Some j)))) None
            | TJsonVal _ | TJsonPtr _ => UOk st (Some EMismatch)
            | TString | TTri => UOk (with_mem st (mwrite (u_mem st) a (VString (String_ j)))) None
            | TMap t' =>
                let '(m1, d) := map_data a (u_mem st) in
                un_members (unm n) (with_mem st m1) (resolve t') d kvs
            | TMapOther _ => let '(m1, _) := map_data a (u_mem st) in UOk (with_mem st m1) (Some EMapKey)
            | TStruct _ fs => un_fields (unm n) st fs (fields_of a (u_mem st)) kvs []
            | TIface | TMethods => UOk st (Some EInterface)
            | TSer _ f => un_serial (unm n) st f a j
            | TPtr t' => if is_dict_kind t' then elem st t' else UOk st (Some EMismatch)
            | _ => UOk st (Some EMismatch)
            end))
      end
  end.

(** Unmarshal(&x, keys...) for a variable x of type t at address a: jsonUnmarshal,
    unmarshal.go:41-72.  Only dicts, arrays and strings have an Unmarshal
    method of their own; JSONBool, JSONInt and JSONFloat inherit the one of the
    embedded JSONValue, for which the receiver is null. *)
Inductive utop : Type :=
| TopOk (m : mem)
| TopErr (m : mem) (e : uerr)
| TopGet (e : jerror)
| TopPanic
| TopFuel.

Definition receiver (j : json) : json :=
  match j with JDict _ _ | JArray _ | JString _ => j | _ => JNull end.

Definition Unmarshal (fuel : nat) (m : mem) (t : gty) (a : addr) (j : json) (keys : list bytes) : utop :=
  match (match keys with [] => ROk (receiver j) | _ => Get (receiver j) keys end) with
  | RErr e => TopGet e
  | ROk jo =>
      match unm fuel {| u_mem := m; u_sess := [] |} (resolve t) a jo with
      | UOk st None => TopOk (u_mem st)
      | UOk st (Some e) => TopErr (u_mem st) e
      | UPanic => TopPanic
      | UFuel => TopFuel
      end
  end.
End Unmarshal.
