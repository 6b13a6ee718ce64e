(** Model of the methods that read whole values, on objects that may contain
    nil and themselves: String, PrettyString, Interface, QueryString, Equals. *)
From Verif Require Import Base Strconv SortedMap Json Access Printer Query Heap Gotypes Equals.

(** What a call does: it returns, it panics, or it is still running after
    [fuel] nested calls. *)
Inductive outcome (X : Type) : Type := Returns (x : X) | Panics | Runs.
Arguments Returns {X} x.
Arguments Panics {X}.
Arguments Runs {X}.

(** A method that calls itself on every element or member in order, and then
    puts the results together.  A call on a nil element is a nil dereference,
    e.g. write.go:73-79, jsonutils.go:639-645, interface.go:43-45,
    querystring.go:147-154; a nil member fails the type assertion to JSONObject,
    e.g. write.go:58, jsonutils.go:588, interface.go:54, querystring.go:162.
    [leaf] is the method on everything else; [at_elem] and [at_member] say what
    is passed down. *)
Section Walk.
Context {E X : Type}.
Context (leaf : E -> cell -> X) (at_elem : E -> nat -> E) (at_member : E -> bytes -> E).
Context (arr : E -> list X -> X) (dict : E -> Z -> list (bytes * X) -> X).

Fixpoint walk_elems (w : E -> addr -> outcome X) (e : E) (i : nat) (rs : list ref) : outcome (list X) :=
  match rs with
  | [] => Returns []
  | None :: _ => Panics
  | Some x :: rs' =>
      match w (at_elem e i) x with
      | Returns y => match walk_elems w e (S i) rs' with Returns l => Returns (y :: l) | Panics => Panics | Runs => Runs end
      | Panics => Panics
      | Runs => Runs
      end
  end.
Fixpoint walk_members (w : E -> addr -> outcome X) (e : E) (kvs : list (bytes * ref)) : outcome (list (bytes * X)) :=
  match kvs with
  | [] => Returns []
  | (_, None) :: _ => Panics
  | (k, Some x) :: kvs' =>
      match w (at_member e k) x with
      | Returns y => match walk_members w e kvs' with Returns l => Returns ((k, y) :: l) | Panics => Panics | Runs => Runs end
      | Panics => Panics
      | Runs => Runs
      end
  end.
Fixpoint walk (fuel : nat) (h : heap) (e : E) (a : addr) : outcome X :=
  match fuel with
  | O => Runs
  | S n =>
      match nth_error h a with
      | None => Panics
      | Some (CArray rs) => match walk_elems (walk n h) e 0%nat rs with Returns l => Returns (arr e l) | Panics => Panics | Runs => Runs end
      | Some (CDict nid kvs) => match walk_members (walk n h) e kvs with Returns l => Returns (dict e nid l) | Panics => Panics | Runs => Runs end
      | Some c => Returns (leaf e c)
      end
  end.
End Walk.

(** String() of the kinds that contain nothing, string.go:23-48, jsonpointer.go:59-61 *)
Definition leaf_string (c : cell) : bytes :=
  match c with
  | CNull => txt_null
  | CBool b => if b then txt_true else txt_false
  | CInt z => format_int z
  | CFloat f bit => float_string f bit
  | CString s => quote_string s
  | CPtr n => ptr_string n
  | CArray _ | CDict _ _ => []
  end.

(** buildString, write.go:48-81, from the texts of the elements and members *)
Definition string_arr (ts : list bytes) : bytes :=
  ["["%byte]
    ++ (fix go (idx : nat) (l : list bytes) : bytes :=
          match l with
          | [] => []
          | t :: l' => (if Nat.ltb 0 idx then [","%byte] else []) ++ t ++ go (S idx) l'
          end) 0%nat ts
    ++ ["]"%byte].
Definition string_dict (nid : Z) (ts : list (bytes * bytes)) : bytes :=
  ["{"%byte]
    ++ (if 0 <? nid then quote_string jnid_key ++ [":"%byte] ++ format_int nid else [])
    ++ (fix go (idx : nat) (l : list (bytes * bytes)) : bytes :=
          match l with
          | [] => []
          | (k, t) :: l' => (if Nat.ltb 0 idx then [","%byte] else []) ++ quote_string k ++ [":"%byte] ++ t ++ go (S idx) l'
          end) (if 0 <? nid then 1%nat else 0%nat) ts
    ++ ["}"%byte].
Definition h_string (fuel : nat) (h : heap) (a : addr) : outcome bytes :=
  walk (fun _ => leaf_string) (fun e _ => e) (fun e _ => e) (fun _ => string_arr) (fun _ => string_dict) fuel h tt a.

(** prettyString, jsonutils.go:371-378, 575-614, 628-650.  What is passed down
    is the level, and whether the text comes directly behind a member's name. *)
Definition pretty_leaf (e : bool * nat) (c : cell) : bytes :=
  if fst e then [" "%byte] ++ leaf_string c else tabs (snd e) ++ leaf_string c.
Definition pretty_arr (e : bool * nat) (ts : list bytes) : bytes :=
  (if fst e then [x0a] else [])
    ++ tabs (snd e) ++ ["["%byte]
    ++ (fix go (idx : nat) (l : list bytes) : bytes :=
          match l with
          | [] => []
          | t :: l' => (if Nat.ltb 0 idx then [","%byte] else []) ++ [x0a] ++ t ++ go (S idx) l'
          end) 0%nat ts
    ++ (match ts with [] => [] | _ => [x0a] ++ tabs (snd e) end)
    ++ ["]"%byte].
Definition pretty_dict (e : bool * nat) (nid : Z) (ts : list (bytes * bytes)) : bytes :=
  (if fst e then [x0a] else [])
    ++ tabs (snd e) ++ ["{"%byte]
    ++ (fix go (idx : nat) (l : list (bytes * bytes)) : bytes :=
          match l with
          | [] => []
          | (k, t) :: l' => (if Nat.ltb 0 idx then [","%byte] else [])
                              ++ [x0a] ++ tabs (snd e) ++ [" "%byte; " "%byte]
                              ++ [""""%byte] ++ k ++ [""""%byte; ":"%byte] ++ t ++ go (S idx) l'
          end) 0%nat ts
    ++ (match ts with [] => [] | _ => [x0a] ++ tabs (snd e) end)
    ++ ["}"%byte].
Definition h_pretty_string (fuel : nat) (h : heap) (a : addr) : outcome bytes :=
  walk pretty_leaf (fun e _ => (false, (snd e + 1)%nat)) (fun e _ => (true, (snd e + 2)%nat)) pretty_arr pretty_dict fuel h (false, 0%nat) a.

(** Interface(), interface.go:21-58 *)
Definition leaf_native (c : cell) : option gval :=
  match c with
  | CBool b => Some (GBool b)
  | CInt z => Some (GInt (Signed 64) z)
  | CFloat f _ => Some (GFloat 64 f)
  | CString s => Some (GString s)
  | CNull | CPtr _ | CArray _ | CDict _ _ => None
  end.
Definition h_interface (fuel : nat) (h : heap) (a : addr) : outcome (option gval) :=
  walk (fun _ => leaf_native) (fun e _ => e) (fun e _ => e)
    (fun _ l => Some (GSlice (Some (map GIface l)))) (fun _ _ l => Some (GMap (Some (map (fun kv => (fst kv, GIface (snd kv))) l))))
    fuel h tt a.

(** _queryString, querystring.go:127-170, jsonpointer.go:103-105, passes the key
    down; QueryString, querystring.go:172-178, jsonpointer.go:99-101: all kinds
    but the dict inherit the one of JSONValue, which looks at nothing. *)
Definition leaf_query (key : bytes) (c : cell) : bytes :=
  match c with
  | CNull => simple_query_string key []
  | CPtr _ => []
  | CString s => simple_query_string key s
  | c => simple_query_string key (leaf_string c)
  end.
Definition h_query_string (fuel : nat) (h : heap) (a : addr) : outcome bytes :=
  match nth_error h a with
  | None => Panics
  | Some (CDict _ _) =>
      walk leaf_query (fun key i => sub_key key (format_int (Z.of_nat i))) sub_key
        (fun _ l => join_with "&"%byte l) (fun _ _ l => join_with "&"%byte (map snd l)) fuel h [] a
  | Some (CPtr _) => Returns []
  | Some _ => Returns (simple_query_string [] [])
  end.

(** The Equals methods, equals.go:21-99, jsonpointer.go:166-168.  A nil element
    of the receiver is a nil dereference (equals.go:55); a nil element of the
    argument is passed on and equals nothing; a nil member on either side fails
    a type assertion (equals.go:36-37). *)
Section Equals.
Context (eq : addr -> addr -> outcome bool).
Fixpoint eq_elems (l l2 : list ref) : outcome bool :=
  match l, l2 with
  | v :: l', w :: l2' =>
      match v with
      | None => Panics
      | Some x => match w with
                  | None => Returns false
                  | Some y => match eq x y with Returns true => eq_elems l' l2' | r => r end
                  end
      end
  | _, _ => Returns true
  end.
Fixpoint eq_members (m : list (bytes * ref)) (kvs2 : smap ref) : outcome bool :=
  match m with
  | [] => Returns true
  | (k, v) :: m' =>
      match sm_get kvs2 k with
      | Some w => match v, w with
                  | Some x, Some y => match eq x y with Returns true => eq_members m' kvs2 | r => r end
                  | _, _ => Panics
                  end
      | None => eq_members m' kvs2               (* not a common key *)
      end
  end.
End Equals.
Fixpoint h_equals (fuel : nat) (h : heap) (a b : addr) : outcome bool :=
  match fuel with
  | O => Runs
  | S n =>
      match nth_error h a, nth_error h b with
      | Some c, Some d =>
          match c with
          | CNull | CPtr _ => Returns (match d with CNull => true | _ => false end)
          | CBool x => Returns (match d with CBool y => Bool.eqb x y | _ => false end)
          | CInt x => Returns (match d with CInt y => x =? y | _ => false end)
          | CFloat f _ => Returns (match d with CFloat g _ => float_eq f g | _ => false end)
          | CString s => Returns (match d with CString t => bseq s t | _ => false end)
          | CArray l => match d with
                        | CArray l2 => if negb (Nat.eqb (length l) (length l2)) then Returns false else eq_elems (h_equals n h) l l2
                        | _ => Returns false
                        end
          | CDict _ kvs => match d with
                           | CDict _ kvs2 =>
                               if negb (Nat.eqb (length kvs) (length kvs2)) then Returns false
                               else let '(aNoB, _, _, bNoA) := sm_split kvs kvs2 in
                                    if (Nat.ltb 0 (length aNoB) || Nat.ltb 0 (length bNoA)) then Returns false
                                    else eq_members (h_equals n h) kvs kvs2
                           | _ => Returns false
                           end
          end
      | _, _ => Panics
      end
  end.
