(** Model of access.go, dict.go, size.go, length.go, clone.go (Copy), utils.go:
    access to and update of JSON values.

    Mutating methods return the new value.  A nested dict is updated in place
    in Go; here the updated dict is put back under its key, which is the same
    for a tree (Heap.v treats sharing).  The comparison of a value with the
    JSONNull pointer (access.go:115, utils.go:107, 142) is taken to hold for
    every null.  Wrapped errors are represented by their cause. *)
From Verif Require Import Base Strconv SortedMap Json Printer.

(** errors.go:9-36; [ErrQuerySyntax] stands for the errors of url.ParseQuery *)
Inductive jerror : Type :=
| ErrUnsupported | ErrOutOfKeyRange | ErrOutOfIndexRange
| ErrInvalidJsonDict | ErrInvalidJsonArray | ErrInvalidJsonInt | ErrInvalidJsonFloat
| ErrInvalidJsonBoolean | ErrInvalidJsonString | ErrJsonDictFailInsert | ErrJsonDictKeyNotFound
| ErrMissingInputField | ErrNilInputField | ErrTypeMismatch | ErrQuerySyntax.

Inductive res (A : Type) : Type :=
| ROk (a : A)
| RErr (e : jerror).
Arguments ROk {A} a.
Arguments RErr {A} e.

Definition rbind {A C} (r : res A) (f : A -> res C) : res C :=
  match r with ROk a => f a | RErr e => RErr e end.

(** ** Dicts; [kvs] is the data field *)

(** JSONDict.Set, access.go:76-78 *)
Definition dict_set (kvs : smap json) (key : bytes) (value : json) : smap json := sm_add kvs key value.

(** JSONDict.remove, access.go:98-106.  [ceq] is the key comparison of
    sortedmap.DeleteIgnoreCase / GetIgnoreCase, which are not in /repo. *)
Definition dict_remove_ (ceq : bytes -> bytes -> bool) (kvs : smap json) (key : bytes) (caseSensitive : bool)
  : smap json * bool :=
  if negb caseSensitive then sm_delete_ic ceq kvs key else sm_delete kvs key.

(** JSONDict.Remove, access.go:80-82 *)
Definition dict_remove (kvs : smap json) (key : bytes) : smap json * bool :=
  dict_remove_ bseq kvs key true.

(** JSONDict.RemoveIgnoreCase, access.go:84-96; the loop gets fuel, [None] is
    running out of it. *)
Fixpoint remove_ic_loop (fuel : nat) (ceq : bytes -> bytes -> bool) (kvs : smap json) (key : bytes)
    (someRemoved : bool) : option (smap json * bool) :=
  match fuel with
  | O => None
  | S n => let '(kvs', removed) := dict_remove_ ceq kvs key false in
           if negb removed then Some (kvs', someRemoved)
           else remove_ic_loop n ceq kvs' key true
  end.

Definition dict_remove_ic (ceq : bytes -> bytes -> bool) (kvs : smap json) (key : bytes) : option (smap json * bool) :=
  remove_ic_loop (S (length kvs)) ceq kvs key false.

(** JSONDict.Add(o, key :: keys...), access.go:108-130: the new data and the
    error.  Without keys the loop does nothing. *)
Fixpoint add_path (kvs : smap json) (o : json) (key : bytes) (keys : list bytes) : smap json * option jerror :=
  match keys with
  | [] => (dict_set kvs key o, None)
  | key' :: keys' =>
      let kvs1 := match sm_get kvs key with
                  | None | Some JNull => dict_set kvs key (JDict 0 [])
                  | Some _ => kvs
                  end in
      match sm_get kvs1 key with
      | Some (JDict nid sub) =>
          let '(sub', e) := add_path sub o key' keys' in (sm_add kvs1 key (JDict nid sub'), e)
      | Some _ => (kvs1, Some ErrInvalidJsonDict)
      | None => (kvs1, Some ErrJsonDictFailInsert)
      end
  end.

Definition dict_add (kvs : smap json) (o : json) (keys : list bytes) : smap json * option jerror :=
  match keys with
  | [] => (kvs, None)
  | key :: keys' => add_path kvs o key keys'
  end.

(** JSONDict.Update and UpdateDefault, dict.go:21-35 *)
Definition dict_update (kvs : smap json) (other : json) : smap json :=
  match other with JDict _ kvs2 => sm_merge kvs kvs2 | _ => kvs end.
Definition dict_update_default (kvs : smap json) (other : json) : smap json :=
  match other with JDict _ kvs2 => sm_merge kvs2 kvs | _ => kvs end.

(** The loop of JSONDict._get, access.go:217-239; [look] is data.Get or
    data.GetIgnoreCase. *)
Fixpoint get_loop (look : smap json -> bytes -> option json) (kvs : smap json) (key : bytes) (keys : list bytes)
  : res json :=
  match look kvs key with
  | None => RErr ErrJsonDictKeyNotFound
  | Some v => match keys with
              | [] => ROk v
              | key' :: keys' => match v with
                                 | JDict _ kvs' => get_loop look kvs' key' keys'
                                 | _ => RErr ErrInvalidJsonDict
                                 end
              end
  end.

(** Get of every kind: JSONDict._get (access.go:213-240), JSONValue.Get
    (150-152, inherited by the scalars and by JSONArray), and an unresolved
    reference answers as JSONNull (jsonpointer.go:107-128). *)
Definition get_with (look : smap json -> bytes -> option json) (j : json) (keys : list bytes) : res json :=
  match j with
  | JDict _ kvs => match keys with
                   | [] => ROk j
                   | key :: keys' => get_loop look kvs key keys'
                   end
  | _ => RErr ErrUnsupported
  end.

Definition Get (j : json) (keys : list bytes) : res json := get_with sm_get j keys.
(** GetIgnoreCases, access.go:154-156, 209-211 *)
Definition GetIgnoreCases (ceq : bytes -> bytes -> bool) (j : json) (keys : list bytes) : res json :=
  get_with (sm_get_ic ceq) j keys.

(** Contains, ContainsIgnoreCases, access.go:142-148, 189-203 *)
Definition Contains (j : json) (keys : list bytes) : bool :=
  match Get j keys with ROk _ => true | RErr _ => false end.
Definition ContainsIgnoreCases (ceq : bytes -> bytes -> bool) (j : json) (keys : list bytes) : bool :=
  match GetIgnoreCases ceq j keys with ROk _ => true | RErr _ => false end.

(** SortedKeys (jsonutils.go:567-569), Size (size.go), Length (length.go),
    GetMap (access.go:181-183, 254-270): the entries of the Go map. *)
Definition SortedKeys (kvs : smap json) : list bytes := sm_keys kvs.
Definition dict_size (kvs : smap json) : nat := length kvs.
Definition GetMap (j : json) (keys : list bytes) : res (list (bytes * json)) :=
  match j with
  | JDict _ _ => rbind (Get j keys) (fun obj => match obj with
                                                | JDict _ kvs => ROk kvs
                                                | _ => RErr ErrInvalidJsonDict
                                                end)
  | _ => RErr ErrUnsupported
  end.

(** ** Arrays *)

(** JSONArray.GetAt without keys, access.go:272-284; JSONDict.GetAt, 293-303;
    JSONValue.GetAt, 165-167 *)
Definition array_get_at (l : list json) (i : Z) : res json :=
  let i' := if i <? 0 then Z.of_nat (length l) + i else i in
  if (0 <=? i') && (i' <? Z.of_nat (length l))
  then match nth_error l (Z.to_nat i') with Some v => ROk v | None => RErr ErrOutOfIndexRange end
  else RErr ErrOutOfIndexRange.

Definition GetAt (j : json) (i : Z) (keys : list bytes) : res json :=
  match j with
  | JArray l => match keys with [] => array_get_at l i | _ => RErr ErrOutOfKeyRange end
  | JDict _ _ => rbind (Get j keys) (fun obj => match obj with
                                                | JArray l => array_get_at l i
                                                | _ => RErr ErrInvalidJsonArray
                                                end)
  | _ => RErr ErrUnsupported
  end.

(** GetArray, access.go:185-187, 305-354: the elements in order; a scalar
    counts as the array of itself. *)
Definition get_array0 (j : json) : res (list json) :=
  match j with
  | JArray l => ROk l
  | JBool _ | JInt _ | JFloat _ _ | JString _ => ROk [j]
  | JNull | JPtr _ => RErr ErrUnsupported
  | JDict _ _ => RErr ErrInvalidJsonArray
  end.
Definition GetArray (j : json) (keys : list bytes) : res (list json) :=
  match j with
  | JDict _ _ => rbind (Get j keys) get_array0
  | JNull | JPtr _ => RErr ErrUnsupported
  | _ => match keys with [] => get_array0 j | _ => RErr ErrOutOfKeyRange end
  end.

(** JSONArray.SetAt, access.go:132-134; [None] is the index panic. *)
Fixpoint replace_nth (n : nat) (l : list json) (o : json) : option (list json) :=
  match l, n with
  | [], _ => None
  | _ :: l', O => Some (o :: l')
  | x :: l', S n' => match replace_nth n' l' o with Some r => Some (x :: r) | None => None end
  end.
Definition array_set_at (l : list json) (idx : Z) (o : json) : option (list json) :=
  if idx <? 0 then None else replace_nth (Z.to_nat idx) l o.

(** JSONArray.Add, access.go:136-140 *)
Definition array_add (l : list json) (objs : list json) : list json := fold_left (fun l o => l ++ [o]) objs l.

(** ** Scalars *)

(** strings.EqualFold(s, w) for a lower-case ASCII word w.  Besides the two
    cases of a letter, U+017F folds to s and U+212A to k. *)
Fixpoint equal_fold (s w : bytes) : bool :=
  match w with
  | [] => match s with [] => true | _ => false end
  | c :: w' =>
      match s with
      | [] => false
      | b :: s1 =>
          if beq (lowerb b) c then equal_fold s1 w'
          else match s1 with
               | b2 :: s2 =>
                   if beq b xc5 && beq b2 xbf && beq c "s"%byte then equal_fold s2 w'
                   else match s2 with
                        | b3 :: s3 => if beq b xe2 && beq b2 x84 && beq b3 xaa && beq c "k"%byte
                                      then equal_fold s3 w' else false
                        | [] => false
                        end
               | [] => false
               end
      end
  end.

Definition w_true : bytes := Eval vm_compute in B "true".
Definition w_on : bytes := Eval vm_compute in B "on".
Definition w_yes : bytes := Eval vm_compute in B "yes".
Definition w_false : bytes := Eval vm_compute in B "false".
Definition w_off : bytes := Eval vm_compute in B "off".
Definition w_no : bytes := Eval vm_compute in B "no".

(** Int, access.go:169-171, 356-373, 382-393.  JSONDict.Int calls Int() on the
    value it finds, and that is JSONDict.Int again when the value is a dict;
    [None] is running out of fuel in that recursion. *)
Fixpoint Int_ (fuel : nat) (j : json) (keys : list bytes) : option (res Z) :=
  match fuel with
  | O => None
  | S n =>
      match j with
      | JInt z => Some (match keys with [] => ROk z | _ => RErr ErrOutOfKeyRange end)
      | JString s => Some (match keys with
                           | [] => match parse_int s with Some z => ROk z | None => RErr ErrInvalidJsonInt end
                           | _ => RErr ErrOutOfKeyRange
                           end)
      | JDict _ _ => match Get j keys with
                     | RErr e => Some (RErr e)
                     | ROk obj => Int_ n obj []
                     end
      | _ => Some (RErr ErrUnsupported)
      end
  end.

(** Float, access.go:173-175, 395-419, 428-439; float64(int64) is correct
    rounding. *)
Fixpoint Float_ (fuel : nat) (j : json) (keys : list bytes) : option (res fl) :=
  match fuel with
  | O => None
  | S n =>
      match j with
      | JFloat f _ => Some (match keys with [] => ROk f | _ => RErr ErrOutOfKeyRange end)
      | JInt z => Some (match keys with [] => ROk (float_of_int z) | _ => RErr ErrOutOfKeyRange end)
      | JString s => Some (match keys with
                           | [] => match parse_float F64 s with Some f => ROk f | None => RErr ErrInvalidJsonFloat end
                           | _ => RErr ErrOutOfKeyRange
                           end)
      | JDict _ _ => match Get j keys with
                     | RErr e => Some (RErr e)
                     | ROk obj => Float_ n obj []
                     end
      | _ => Some (RErr ErrUnsupported)
      end
  end.

(** JSONString.Bool without keys, access.go:452-458 *)
Definition bool_of_string (s : bytes) : res bool :=
  if equal_fold s w_true || equal_fold s w_on || equal_fold s w_yes || bseq s ["1"%byte] then ROk true
  else if equal_fold s w_false || equal_fold s w_off || equal_fold s w_no || bseq s ["0"%byte] then ROk false
  else RErr ErrInvalidJsonBoolean.

(** Bool, access.go:177-179, 441-459, 468-479 *)
Fixpoint Bool_ (fuel : nat) (j : json) (keys : list bytes) : option (res bool) :=
  match fuel with
  | O => None
  | S n =>
      match j with
      | JBool b => Some (match keys with [] => ROk b | _ => RErr ErrOutOfKeyRange end)
      | JString s => Some (match keys with [] => bool_of_string s | _ => RErr ErrOutOfKeyRange end)
      | JDict _ _ => match Get j keys with
                     | RErr e => Some (RErr e)
                     | ROk obj => Bool_ n obj []
                     end
      | _ => Some (RErr ErrUnsupported)
      end
  end.

(** GetString without keys, access.go:162, 250, 290, 379, 425, 465, 508; an
    unresolved reference answers as JSONNull (jsonpointer.go:158-160). *)
Definition get_string0 (j : json) : bytes :=
  match j with
  | JString s => s
  | JPtr _ => txt_null
  | _ => String_ j
  end.

(** GetString, access.go:158-163, 242-252, 286-291, 375-380, 421-426, 461-466,
    504-509 *)
Definition GetString (j : json) (keys : list bytes) : res bytes :=
  match keys with
  | [] => ROk (get_string0 j)
  | _ => match j with
         | JDict _ _ => rbind (Get j keys) (fun obj => ROk (get_string0 obj))
         | _ => RErr ErrOutOfKeyRange
         end
  end.

(** ** Projections *)

(** utils.InStringArray (yunion pkg): membership *)
Definition in_strings (k : bytes) (ks : list bytes) : bool := existsb (bseq k) ks.

(** CopyExcludes (also Copy) and CopyIncludes, clone.go:24-50 *)
Definition copy_excludes (kvs : smap json) (ks : list bytes) : smap json :=
  fold_left (fun d '(k, v) => if in_strings k ks then d else dict_set d k v) kvs [].
Definition copy_includes (kvs : smap json) (ks : list bytes) : smap json :=
  fold_left (fun d '(k, v) => if in_strings k ks then dict_set d k v else d) kvs [].

(** ** Helpers of utils.go *)

(** GetStringArray / JSONArray2StringArray, utils.go:32-52 (GetString without
    keys never fails) *)
Definition string_array (l : list json) : list bytes := map get_string0 l.

(** Decimal key of an index, fmt.Sprintf("%d", idx) *)
Definition idx_key (idx : nat) : bytes := format_int (Z.of_nat idx).

(** The loop of GetQueryStringArray over a dict, utils.go:83-91; [None]: fuel *)
Fixpoint qsa_loop (fuel : nat) (obj : json) (idx : nat) : option (list bytes) :=
  match fuel with
  | O => None
  | S n => match GetString obj [idx_key idx] with
           | RErr _ => Some []
           | ROk t => match qsa_loop n obj (S idx) with Some r => Some (t :: r) | None => None end
           end
  end.

(** GetQueryStringArray, utils.go:66-95; the inner [None] is the nil slice *)
Definition GetQueryStringArray (fuel : nat) (query : json) (key : bytes) : option (option (list bytes)) :=
  match Get query [key] with
  | RErr _ => Some None
  | ROk (JArray l) => Some (Some (string_array l))
  | ROk (JString s) => Some (Some [s])
  | ROk (JDict nid kvs) => option_map Some (qsa_loop fuel (JDict nid kvs) 0)
  | ROk _ => Some None
  end.

(** CheckRequiredFields, utils.go:97-112 *)
Fixpoint check_fields (m : list (bytes * json)) (fields : list bytes) : option jerror :=
  match fields with
  | [] => None
  | f :: fields' => match sm_get m f with
                    | None => Some ErrMissingInputField
                    | Some JNull => Some ErrNilInputField
                    | Some _ => check_fields m fields'
                    end
  end.
Definition CheckRequiredFields (data : json) (fields : list bytes) : option jerror :=
  match GetMap data [] with
  | RErr e => Some e
  | ROk m => check_fields m fields
  end.

(** GetAnyString2, utils.go:119-130 *)
Fixpoint GetAnyString2 (j : json) (keys : list bytes) : bytes * bytes :=
  match keys with
  | [] => ([], [])
  | key :: keys' => let val := match GetString j [key] with ROk v => v | RErr _ => [] end in
                    if Nat.ltb 0 (length val) then (val, key) else GetAnyString2 j keys'
  end.
Definition GetAnyString (j : json) (keys : list bytes) : bytes := fst (GetAnyString2 j keys).

(** GetArrayOfPrefix, utils.go:132-148; [None]: fuel *)
Fixpoint prefix_loop (fuel : nat) (j : json) (prefix : bytes) (idx : nat) : option (list json) :=
  match fuel with
  | O => None
  | S n => match Get j [prefix ++ ["."%byte] ++ idx_key idx] with
           | RErr _ | ROk JNull => Some []
           | ROk obj => match prefix_loop n j prefix (S idx) with Some r => Some (obj :: r) | None => None end
           end
  end.
Definition GetArrayOfPrefix (fuel : nat) (j : json) (prefix : bytes) : option (list json) := prefix_loop fuel j prefix 0.
