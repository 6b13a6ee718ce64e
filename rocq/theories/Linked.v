(** Model of the access methods on values with linked references: in the result
    of Marshal every reference (jsonpointer.go:28-31) holds the dict it stands
    for (setJsonObject, jsonpointer.go:44-49), and its methods delegate to that
    dict (lines 79-84 and 107-176).  [links] is the dict of each reference; a
    reference that is not in [links] is not linked, as all references made by
    the parser.  Access.v, Equals.v and Native.v model the case that nothing is
    linked. *)
From Verif Require Import Base Strconv SortedMap Json Printer Access Equals Heap Gotypes Native Time.

Section Linked.
Context (links : Z -> option json).

(** getNode, jsonpointer.go:107-112 *)
Definition get_node (p : Z) : json := match links p with Some d => d | None => JNull end.

(** The receiver that a method call ends up with *)
Definition recv (j : json) : json := match j with JPtr p => get_node p | _ => j end.

(** Get, GetIgnoreCases, Contains, ContainsIgnoreCases, GetAt, GetMap:
    jsonpointer.go:114-132, 146-148.  Inside, the keys after the first are
    looked up only in values that are *JSONDict (access.go:229), the value
    found must be a *JSONDict (access.go:259) or a *JSONArray (access.go:298). *)
Definition Get_l (j : json) (keys : list bytes) : res json := Get (recv j) keys.
Definition GetIgnoreCases_l (ceq : bytes -> bytes -> bool) (j : json) (keys : list bytes) : res json := GetIgnoreCases ceq (recv j) keys.
Definition Contains_l (j : json) (keys : list bytes) : bool := Contains (recv j) keys.
Definition GetAt_l (j : json) (i : Z) (keys : list bytes) : res json := GetAt (recv j) i keys.
Definition GetMap_l (j : json) (keys : list bytes) : res (list (bytes * json)) := GetMap (recv j) keys.

(** j.Get(k1), then .Get(k2) of what was found, and so on *)
Fixpoint walk (j : json) (keys : list bytes) : res json :=
  match keys with
  | [] => ROk j
  | k :: keys' => rbind (Get_l j [k]) (fun v => walk v keys')
  end.

(** GetString, jsonpointer.go:158-160; access.go:242-252: the object found may
    be a reference itself. *)
Definition GetString_l (j : json) (keys : list bytes) : res bytes :=
  match keys with
  | [] => ROk (get_string0 (recv j))
  | _ => match recv j with
         | JDict _ _ => rbind (Get (recv j) keys) (fun obj => ROk (get_string0 (recv obj)))
         | _ => RErr ErrOutOfKeyRange
         end
  end.

(** GetArray, jsonpointer.go:150-152; access.go:305-315, 316-326 *)
Definition GetArray_l (j : json) (keys : list bytes) : res (list json) :=
  match recv j with
  | JDict _ _ => rbind (Get (recv j) keys) (fun obj => get_array0 (recv obj))
  | _ => GetArray (recv j) keys
  end.

(** Int, Float, Bool: jsonpointer.go:134-144; access.go:382-393, 428-439,
    468-479: JSONDict.Int looks the keys up and calls Int() of what it finds,
    which may be a reference; [leaf] is the method of the other types.  [None]:
    more than [fuel] calls. *)
Fixpoint scalar_l {A} (leaf : json -> list bytes -> option (res A)) (fuel : nat) (j : json) (keys : list bytes) : option (res A) :=
  match fuel with
  | O => None
  | S n => match recv j with
           | JDict nid kvs => match Get (JDict nid kvs) keys with
                              | RErr e => Some (RErr e)
                              | ROk obj => scalar_l leaf n obj []
                              end
           | r => leaf r keys
           end
  end.
Definition Int_l := scalar_l (Int_ 1).
Definition Float_l := scalar_l (Float_ 1).
Definition Bool_l := scalar_l (Bool_ 1).

(** GetTime, jsonpointer.go:154-156; the value a dict finds must be a
    *JSONString (access.go:516-519). *)
Definition GetTime_l (P : time_parsers) (j : json) (keys : list bytes) : res instant := GetTime P (recv j) keys.

(** IsZero, jsonpointer.go:79-84 *)
Definition IsZero_l (j : json) : bool := IsZero (recv j).

(** Interface(), jsonpointer.go:170-172 and interface.go:21-58; [fuel] is the
    number of references followed on the way down, [None]: more than that. *)
Fixpoint native_l (fuel : nat) : json -> option (option gval) :=
  fix go (j : json) : option (option gval) :=
    match j with
    | JNull => Some None
    | JBool b => Some (Some (GBool b))
    | JInt z => Some (Some (GInt (Signed 64) z))
    | JFloat f _ => Some (Some (GFloat 64 f))
    | JString s => Some (Some (GString s))
    | JArray l =>
        match (fix elems (l : list json) : option (list gval) :=
                 match l with
                 | [] => Some []
                 | x :: l' => match go x, elems l' with Some v, Some r => Some (GIface v :: r) | _, _ => None end
                 end) l with
        | Some r => Some (Some (GSlice (Some r)))
        | None => None
        end
    | JDict _ kvs =>
        match (fix members (l : list (bytes * json)) : option (list (bytes * gval)) :=
                 match l with
                 | [] => Some []
                 | (k, x) :: l' => match go x, members l' with Some v, Some r => Some ((k, GIface v) :: r) | _, _ => None end
                 end) kvs with
        | Some r => Some (Some (GMap (Some r)))
        | None => None
        end
    | JPtr p =>
        match links p with
        | None => Some None
        | Some d => match fuel with O => None | S n => native_l n d end
        end
    end.

(** Equals, jsonpointer.go:166-168 and equals.go:21-99.  The receiver is
    followed, the argument is not. *)
Fixpoint equals_l (fuel : nat) : json -> json -> option bool :=
  fix go (a b : json) {struct a} : option bool :=
    match a with
    | JPtr p =>
        match links p with
        | None => Some (match b with JNull => true | _ => false end)
        | Some d => match fuel with O => None | S n => equals_l n d b end
        end
    | JArray l =>
        match b with
        | JArray l2 =>
            if negb (Nat.eqb (length l) (length l2)) then Some false
            else (fix elems (l l2 : list json) : option bool :=
                    match l, l2 with
                    | v :: l', w :: l2' => match go v w with
                                           | None => None
                                           | Some false => Some false
                                           | Some true => elems l' l2'
                                           end
                    | _, _ => Some true
                    end) l l2
        | _ => Some false
        end
    | JDict _ kvs =>
        match b with
        | JDict _ kvs2 =>
            if negb (Nat.eqb (length kvs) (length kvs2)) then Some false
            else
              let '(aNoB, _, _, bNoA) := sm_split kvs kvs2 in
              if (Nat.ltb 0 (length aNoB) || Nat.ltb 0 (length bNoA)) then Some false
              else (fix members (m : list (bytes * json)) : option bool :=
                      match m with
                      | [] => Some true
                      | (k, v) :: m' =>
                          match sm_get kvs2 k with
                          | Some w => match go v w with
                                      | None => None
                                      | Some false => Some false
                                      | Some true => members m'
                                      end
                          | None => members m'
                          end
                      end) kvs
        | _ => Some false
        end
    | _ => Some (equals a b)
    end.
End Linked.
