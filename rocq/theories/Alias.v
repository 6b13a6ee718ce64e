(** Model of Unmarshal into a variable of one of the package's own types
    (JSONObject, *JSONDict, *JSONArray, *JSONString, *JSONInt, *JSONFloat,
    *JSONBool), with the identity of the objects: the scalar, array and dict
    cases of unmarshal.go on the heap of Heap.v.  Unmarshal.v models the same
    code on values; PropAlias.v shows that the two agree.

    Simplifications: the variable is settable; a reference (JSONPointer) as the
    source is not modelled here ([None]).  The interning of true, false and
    null (jsonutils.go:67-71) is up to the heap: two variables may refer to the
    same cell. *)
From Verif Require Import Base Strconv SortedMap Json Printer Access JErrors Heap Gotypes Marshal Unmarshal.

(** The type of the variable; [None]: JSONObject *)
Definition vtype := option jkind.

(** reflect.New(JSONString), ... *)
Definition zero_node (k : jkind) : cell :=
  match k with
  | KDict => CDict 0 [] | KArray => CArray [] | KString => CString [] | KInt => CInt 0
  | KFloat => CFloat (fzero F64 false) 0 | KBool => CBool false
  end.

(** std_json.go:71-73: a nil pointer is first made to point to a new object *)
Definition indirect_node (h : heap) (t : vtype) (r : ref) : heap * ref :=
  match t, r with
  | Some k, None => let '(h1, b) := halloc h (zero_node k) in (h1, Some b)
  | _, _ => (h, r)
  end.

(** What becomes of the variable and of the heap *)
Inductive change : Type :=
| Refer                                       (* val.Set(reflect.ValueOf(this)) *)
| Store (c : cell)                            (* json.data = data, or a new object if json is nil *)
| Refuse.                                     (* ErrTypeMismatch *)

(** The switches on val.Type(): unmarshal.go:87-111 (int), 153-177 (bool),
    222-262 (float), 308-355 (string), 421-435 (array), 485-497 (dict) *)
Definition change_of (c : cell) (t : vtype) : option change :=
  match c, t with
  | CNull, _ => None                          (* unmarshal.go:74-80, done by the caller *)
  | CPtr _, _ => None
  | _, None => Some Refer
  | CInt _, Some KInt => Some Refer
  | CInt z, Some KString => Some (Store (CString (format_int z)))
  | CBool _, Some KBool => Some Refer
  | CBool x, Some KString => Some (Store (CString (if x then txt_true else txt_false)))
  | CFloat _ _, Some KFloat => Some Refer
  | CFloat f _, Some KString => Some (Store (CString (format_f6 f)))
  | CFloat f _, Some KInt => Some (Store (CInt (f2i f)))
  | CString _, Some KString => Some Refer
  | CString s, Some KBool => Some (Store (CBool (says_yes s)))
  | CArray _, Some KArray => Some Refer
  | CDict _ _, Some KDict => Some Refer
  | _, Some _ => Some Refuse
  end.

(** unmarshalValue of the object at [src] into a variable of type [t] that
    refers to [r]: the heap and the reference afterwards, and whether it was an
    error *)
Definition assign (h : heap) (t : vtype) (r : ref) (src : addr) : option (heap * ref * option uerr) :=
  match nth_error h src with
  | None => None
  | Some CNull => Some (h, None, None)
  | Some c =>
      match change_of c t with
      | None => None
      | Some ch =>
          let '(h1, r1) := indirect_node h t r in
          match ch with
          | Refer => Some (h1, Some src, None)
          | Store d => match r1 with
                       | Some b => Some (hwrite h1 b d, r1, None)
                       | None => let '(h2, b) := halloc h1 d in Some (h2, Some b, None)
                       end
          | Refuse => Some (h1, r1, Some EMismatch)
          end
      end
  end.

(** A program that unmarshals, in turn, objects into some of its variables. *)
Definition vars := list (vtype * ref).
Fixpoint set_var (vs : vars) (i : nat) (r : ref) : vars :=
  match vs, i with
  | [], _ => []
  | (t, _) :: vs', O => (t, r) :: vs'
  | v :: vs', S i' => v :: set_var vs' i' r
  end.
Fixpoint assigns (h : heap) (vs : vars) (l : list (nat * addr)) : option (heap * vars) :=
  match l with
  | [] => Some (h, vs)
  | (i, src) :: l' =>
      match nth_error vs i with
      | None => None
      | Some (t, r) =>
          match assign h t r src with
          | Some (h', r', _) => assigns h' (set_var vs i r') l'
          | None => None
          end
      end
  end.
