(** Model of JSON values as Go objects: a heap of cells that refer to each
    other, for sharing and copying (clone.go, and the mutating methods of
    access.go and dict.go on shared objects).

    Simplifications: a cell owns its slice (access.go:41-44, 310-313 and
    clone.go:53-56 build fresh slices; the sharing of backing arrays inside
    package sortedmap is not modelled). *)
From Verif Require Import Base Strconv SortedMap SortedMapFacts Json Access.

Notation addr := nat (only parsing).

(** A JSONObject variable: [None] is the nil interface. *)
Definition ref := option addr.

(** jsonutils.go:64-105, jsonpointer.go:28-31 *)
Inductive cell : Type :=
| CNull
| CBool (b : bool)
| CInt (z : Z)
| CFloat (f : fl) (bit : Z)
| CString (s : bytes)
| CArray (rs : list ref)
| CDict (nid : Z) (kvs : smap ref)
| CPtr (nid : Z).

Definition is_nil (r : ref) : bool := match r with None => true | Some _ => false end.

(** Addresses are positions; memory is never reused. *)
Definition heap := list cell.

Definition halloc (h : heap) (c : cell) : heap * addr := (h ++ [c], length h).

Fixpoint hwrite (h : heap) (a : addr) (c : cell) : heap :=
  match h, a with
  | [], _ => []
  | _ :: h', O => c :: h'
  | x :: h', S a' => x :: hwrite h' a' c
  end.

Definition cell_refs (c : cell) : list ref :=
  match c with CArray rs => rs | CDict _ kvs => map snd kvs | _ => [] end.

Fixpoint map_opt {A C} (f : A -> option C) (l : list A) : option (list C) :=
  match l with
  | [] => Some []
  | x :: l' => match f x, map_opt f l' with Some y, Some r => Some (y :: r) | _, _ => None end
  end.

(** The value an address stands for; [None]: a nil or a dangling reference
    inside, or nested deeper than [fuel]. *)
Fixpoint read (fuel : nat) (h : heap) (a : addr) : option json :=
  match fuel with
  | O => None
  | S n =>
      let rd := fun r : ref => match r with Some x => read n h x | None => None end in
      match nth_error h a with
      | None => None
      | Some CNull => Some JNull
      | Some (CBool b) => Some (JBool b)
      | Some (CInt z) => Some (JInt z)
      | Some (CFloat f bit) => Some (JFloat f bit)
      | Some (CString s) => Some (JString s)
      | Some (CArray rs) => option_map JArray (map_opt rd rs)
      | Some (CDict nid kvs) =>
          option_map (JDict nid) (map_opt (fun kv => option_map (pair (fst kv)) (rd (snd kv))) kvs)
      | Some (CPtr n) => Some (JPtr n)
      end
  end.

(** ** DeepCopy *)

Inductive dres (A : Type) : Type :=
| DOk (h : heap) (a : A)
| DPanic
| DFuel.
Arguments DOk {A} h a.
Arguments DPanic {A}.
Arguments DFuel {A}.

(** Copying a list of elements in turn, clone.go:102-107 *)
Fixpoint copy_elems (f : heap -> addr -> dres ref) (h : heap) (rs : list ref) : dres (list ref) :=
  match rs with
  | [] => DOk h []
  | r :: rs' =>
      match (match r with None => DOk h None | Some x => f h x end) with
      | DOk h1 r' => match copy_elems f h1 rs' with
                     | DOk h2 rs2 => DOk h2 (r' :: rs2)
                     | DPanic => DPanic
                     | DFuel => DFuel
                     end
      | DPanic => DPanic
      | DFuel => DFuel
      end
  end.

(** Copying members in turn, clone.go:113-116 *)
Fixpoint copy_members (f : heap -> addr -> dres ref) (h : heap) (kvs : list (bytes * ref)) : dres (list (bytes * ref)) :=
  match kvs with
  | [] => DOk h []
  | (k, r) :: kvs' =>
      match (match r with None => DOk h None | Some x => f h x end) with
      | DOk h1 r' => match copy_members f h1 kvs' with
                     | DOk h2 l => DOk h2 ((k, r') :: l)
                     | DPanic => DPanic
                     | DFuel => DFuel
                     end
      | DPanic => DPanic
      | DFuel => DFuel
      end
  end.

(** DeepCopy, clone.go:84-123.  [ord] is the order in which Go's range visits
    the map of GetMap (line 113), which may be any.  GetMap asserts that each
    member is a JSONObject (access.go:267) and panics on a nil.  Where Go
    allocates the new dict first and then fills it, it is allocated last here. *)
Fixpoint deep_copy (ord : heap -> list (bytes * ref) -> list (bytes * ref)) (fuel : nat) (h : heap) (a : addr) : dres ref :=
  match fuel with
  | O => DFuel
  | S n =>
      match nth_error h a with
      | None => DPanic
      | Some (CArray rs) =>
          match copy_elems (deep_copy ord n) h rs with
          | DOk h1 rs' => let '(h2, b) := halloc h1 (CArray rs') in DOk h2 (Some b)
          | DPanic => DPanic
          | DFuel => DFuel
          end
      | Some (CDict nid kvs) =>
          if existsb (fun kv => is_nil (snd kv)) kvs then DPanic
          else match copy_members (deep_copy ord n) h (ord h kvs) with
               | DOk h1 l => let '(h2, b) := halloc h1 (CDict 0 (sm_of_list l [])) in DOk h2 (Some b)
               | DPanic => DPanic
               | DFuel => DFuel
               end
      | Some (CPtr _) => DOk h None
      | Some c => let '(h1, b) := halloc h c in DOk h1 (Some b)
      end
  end.

(** ** The mutating methods on objects; [None] is a panic or a wrong receiver *)

Definition get_dict (h : heap) (a : addr) : option (Z * smap ref) :=
  match nth_error h a with Some (CDict nid kvs) => Some (nid, kvs) | _ => None end.
Definition get_arr (h : heap) (a : addr) : option (list ref) :=
  match nth_error h a with Some (CArray rs) => Some rs | _ => None end.

(** JSONDict.Set, access.go:76-78 *)
Definition h_set (h : heap) (a : addr) (k : bytes) (v : ref) : option heap :=
  match get_dict h a with
  | Some (nid, kvs) => Some (hwrite h a (CDict nid (sm_add kvs k v)))
  | None => None
  end.

(** JSONDict.Remove and RemoveIgnoreCase, access.go:80-106 *)
Definition h_remove (h : heap) (a : addr) (k : bytes) : option heap :=
  match get_dict h a with
  | Some (nid, kvs) => Some (hwrite h a (CDict nid (fst (sm_delete kvs k))))
  | None => None
  end.
Fixpoint h_remove_ic_loop (fuel : nat) (ceq : bytes -> bytes -> bool) (kvs : smap ref) (k : bytes) : smap ref :=
  match fuel with
  | O => kvs
  | S n => let '(kvs', removed) := sm_delete_ic ceq kvs k in
           if removed then h_remove_ic_loop n ceq kvs' k else kvs'
  end.
Definition h_remove_ic (ceq : bytes -> bytes -> bool) (h : heap) (a : addr) (k : bytes) : option heap :=
  match get_dict h a with
  | Some (nid, kvs) => Some (hwrite h a (CDict nid (h_remove_ic_loop (S (length kvs)) ceq kvs k)))
  | None => None
  end.

(** JSONDict.Add(o, key :: keys...), access.go:108-130.  [isnull] is the
    comparison of a null object with the JSONNull pointer in line 115: JSONValue
    has no fields (jsonutils.go:64), and Go leaves open whether pointers to
    distinct zero-size variables are equal; clone.go:118-120 makes new ones. *)
Fixpoint h_add_path (isnull : addr -> bool) (h : heap) (a : addr) (o : ref) (key : bytes) (keys : list bytes) {struct keys}
  : option (heap * option jerror) :=
  match get_dict h a with
  | None => None
  | Some (nid, kvs) =>
      match keys with
      | [] => Some (hwrite h a (CDict nid (sm_add kvs key o)), None)
      | key' :: keys' =>
          let fresh := let '(h1, b) := halloc h (CDict 0 []) in (hwrite h1 a (CDict nid (sm_add kvs key (Some b))), b) in
          match sm_get kvs key with
          | None => h_add_path isnull (fst fresh) (snd fresh) o key' keys'
          | Some None => Some (h, Some ErrInvalidJsonDict)
          | Some (Some x) =>
              match nth_error h x with
              | Some CNull => if isnull x then h_add_path isnull (fst fresh) (snd fresh) o key' keys'
                              else Some (h, Some ErrInvalidJsonDict)
              | Some (CDict _ _) => h_add_path isnull h x o key' keys'
              | _ => Some (h, Some ErrInvalidJsonDict)
              end
          end
      end
  end.
Definition h_add (isnull : addr -> bool) (h : heap) (a : addr) (o : ref) (keys : list bytes) : option (heap * option jerror) :=
  match keys with [] => Some (h, None) | k :: ks => h_add_path isnull h a o k ks end.

(** JSONDict.Get and GetIgnoreCases, access.go:205-240, returns the object
    itself, not a copy; [None] is the panic of the type assertion in line 228
    on a nil member, or a wrong receiver. *)
Fixpoint h_get_loop (look : smap ref -> bytes -> option ref) (h : heap) (a : addr) (key : bytes) (keys : list bytes) {struct keys}
  : option (res addr) :=
  match get_dict h a with
  | None => None
  | Some (_, kvs) =>
      match look kvs key with
      | None => Some (RErr ErrJsonDictKeyNotFound)
      | Some r =>
          match keys with
          | [] => match r with Some x => Some (ROk x) | None => None end
          | key' :: keys' =>
              match r with
              | Some x => match nth_error h x with
                          | Some (CDict _ _) => h_get_loop look h x key' keys'
                          | _ => Some (RErr ErrInvalidJsonDict)
                          end
              | None => Some (RErr ErrInvalidJsonDict)
              end
          end
      end
  end.
Definition h_get_with (look : smap ref -> bytes -> option ref) (h : heap) (a : addr) (keys : list bytes) : option (res addr) :=
  match keys with
  | [] => match get_dict h a with Some _ => Some (ROk a) | None => None end
  | key :: keys' => h_get_loop look h a key keys'
  end.
Definition h_get := h_get_with sm_get.
Definition h_get_ic (ceq : bytes -> bytes -> bool) := h_get_with (sm_get_ic ceq).

(** JSONArray.GetAt, access.go:272-284: the element itself; [None]: not an
    array.  A nil element is returned as such. *)
Definition h_get_at (h : heap) (a : addr) (i : Z) : option (res ref) :=
  match get_arr h a with
  | None => None
  | Some rs =>
      let i' := if i <? 0 then Z.of_nat (length rs) + i else i in
      if (0 <=? i') && (i' <? Z.of_nat (length rs))
      then match nth_error rs (Z.to_nat i') with Some r => Some (ROk r) | None => Some (RErr ErrOutOfIndexRange) end
      else Some (RErr ErrOutOfIndexRange)
  end.

(** JSONDict.Update, UpdateDefault, dict.go:21-35 *)
Definition h_update (h : heap) (a : addr) (other : addr) : option heap :=
  match get_dict h a with
  | Some (nid, kvs) => match get_dict h other with
                       | Some (_, kvs2) => Some (hwrite h a (CDict nid (sm_merge kvs kvs2)))
                       | None => Some h
                       end
  | None => None
  end.
Definition h_update_default (h : heap) (a : addr) (other : addr) : option heap :=
  match get_dict h a with
  | Some (nid, kvs) => match get_dict h other with
                       | Some (_, kvs2) => Some (hwrite h a (CDict nid (sm_merge kvs2 kvs)))
                       | None => Some h
                       end
  | None => None
  end.

(** JSONArray.Add, access.go:136-140; JSONArray.SetAt, access.go:132-134 *)
Definition h_append (h : heap) (a : addr) (vs : list ref) : option heap :=
  match get_arr h a with
  | Some rs => Some (hwrite h a (CArray (rs ++ vs)))
  | None => None
  end.
Fixpoint set_nth {A} (n : nat) (l : list A) (o : A) : option (list A) :=
  match l, n with
  | [], _ => None
  | _ :: l', O => Some (o :: l')
  | x :: l', S n' => match set_nth n' l' o with Some r => Some (x :: r) | None => None end
  end.
Definition h_set_at (h : heap) (a : addr) (i : nat) (v : ref) : option heap :=
  match get_arr h a with
  | Some rs => match set_nth i rs v with Some rs' => Some (hwrite h a (CArray rs')) | None => None end
  | None => None
  end.

(** JSONDict.Copy (CopyExcludes) and CopyIncludes, clone.go:24-50 (a nil
    member that is kept panics in the type assertion); JSONArray.Copy,
    clone.go:52-58 *)
Definition h_copy (h : heap) (a : addr) (keep : bytes -> bool) : option (heap * addr) :=
  match nth_error h a with
  | Some (CDict _ kvs) =>
      let kept := filter (fun kv => keep (fst kv)) kvs in
      if existsb (fun kv => is_nil (snd kv)) kept then None
      else Some (halloc h (CDict 0 (sm_of_list kept [])))
  | Some (CArray rs) => Some (halloc h (CArray rs))
  | _ => None
  end.

(** ** A client of the package: it holds some objects, and uses only the API
    on what it holds. *)

Inductive cop : Type :=
| KNew (c : cell)                                  (* NewString, ..., NewDict(), NewArray() *)
| KGet (d : nat) (k : bytes)                       (* hold the member of a held dict *)
| KGetAt (a : nat) (i : nat)                       (* hold the element of a held array *)
| KSet (d : nat) (k : bytes) (v : nat)
| KRemove (d : nat) (k : bytes)
| KRemoveIgnoreCase (ceq : bytes -> bytes -> bool) (d : nat) (k : bytes)
| KAdd (isnull : addr -> bool) (d : nat) (v : nat) (keys : list bytes)
| KUpdate (d : nat) (other : nat)
| KUpdateDefault (d : nat) (other : nat)
| KAppend (a : nat) (v : nat)
| KSetAt (a : nat) (i : nat) (v : nat)
| KCopy (x : nat) (keep : bytes -> bool)
| KDeepCopy (x : nat).

(** One call; the new heap and the objects held afterwards.  [None]: the call
    panics or is applied to the wrong kind of object. *)
Definition cstep (ord : heap -> list (bytes * ref) -> list (bytes * ref)) (fuel : nat)
    (st : heap * list addr) (o : cop) : option (heap * list addr) :=
  let '(h, held) := st in
  let obj := fun i k => match nth_error held i with Some a => k a | None => None end in
  let upd := fun r : option heap => match r with Some h' => Some (h', held) | None => None end in
  match o with
  | KNew c => match cell_refs c with
              | [] => let '(h', a) := halloc h c in Some (h', held ++ [a])
              | _ => None
              end
  | KGet d k => obj d (fun a => match get_dict h a with
                                | Some (_, kvs) => match sm_get kvs k with
                                                   | Some (Some x) => Some (h, held ++ [x])
                                                   | _ => Some (h, held)
                                                   end
                                | None => None
                                end)
  | KGetAt d i => obj d (fun a => match get_arr h a with
                                  | Some rs => match nth_error rs i with
                                               | Some (Some x) => Some (h, held ++ [x])
                                               | _ => Some (h, held)
                                               end
                                  | None => None
                                  end)
  | KSet d k v => obj d (fun a => obj v (fun x => upd (h_set h a k (Some x))))
  | KRemove d k => obj d (fun a => upd (h_remove h a k))
  | KRemoveIgnoreCase ceq d k => obj d (fun a => upd (h_remove_ic ceq h a k))
  | KAdd isnull d v keys => obj d (fun a => obj v (fun x => upd (option_map fst (h_add isnull h a (Some x) keys))))
  | KUpdate d other => obj d (fun a => obj other (fun b => upd (h_update h a b)))
  | KUpdateDefault d other => obj d (fun a => obj other (fun b => upd (h_update_default h a b)))
  | KAppend d v => obj d (fun a => obj v (fun x => upd (h_append h a [Some x])))
  | KSetAt d i v => obj d (fun a => obj v (fun x => upd (h_set_at h a i (Some x))))
  | KCopy x keep => obj x (fun a => match h_copy h a keep with
                                    | Some (h', b) => Some (h', held ++ [b])
                                    | None => None
                                    end)
  | KDeepCopy x => obj x (fun a => match deep_copy ord fuel h a with
                                   | DOk h' (Some b) => Some (h', held ++ [b])
                                   | DOk h' None => Some (h', held)
                                   | _ => None
                                   end)
  end.

Fixpoint crun (ord : heap -> list (bytes * ref) -> list (bytes * ref)) (fuel : nat)
    (st : heap * list addr) (ops : list cop) : option (heap * list addr) :=
  match ops with
  | [] => Some st
  | o :: ops' => match cstep ord fuel st o with
                 | Some st' => crun ord fuel st' ops'
                 | None => None
                 end
  end.
