(** Model of Unmarshal with AfterUnmarshal methods that do something:
    Unmarshal.v again, statement by statement, with the call in
    unmarshal.go:627.  Which methods that call runs is in Hooks.v; here [hook]
    is what they do together to the variables ([None]: a panic).  The run also
    gives the list of these calls, with the variables as they were. *)
From Verif Require Import Base Strconv SortedMap Json Printer Heap Gotypes Marshal Access Unmarshal.

(** callStructAfterUnmarshal of the struct variable [hk_var] of type [hk_type],
    when the variables were [hk_mem]. *)
Record hcall := { hk_type : nat; hk_var : addr; hk_mem : mem }.

Inductive hres (A : Type) : Type :=
| HOk (st : ustate) (log : list hcall) (r : A)
| HPanic
| HFuel.
Arguments HOk {A} st log r.
Arguments HPanic {A}.
Arguments HFuel {A}.

Definition lift {A} (r : ures A) : hres A :=
  match r with UOk st a => HOk st [] a | UPanic => HPanic | UFuel => HFuel end.
Definition hbind {A C} (r : hres A) (k : ustate -> A -> hres C) : hres C :=
  match r with
  | HOk st log a => match k st a with HOk st' log' c => HOk st' (log ++ log') c | HPanic => HPanic | HFuel => HFuel end
  | HPanic => HPanic
  | HFuel => HFuel
  end.

Section UnmHook.
Context (env : nat -> list (finfo * gty)).
Context (locate : list (finfo * gty) -> bytes -> list nat).
Context (match_us match_eu : bytes -> bool) (to_bool : bytes -> bool)
  (parse_time : bytes -> option bytes) (time_json : bytes -> option (option bytes)) (std_ok : bytes -> bool).
(** What the AfterUnmarshal methods of a struct type do to a variable of it. *)
Context (hook : nat -> mem -> addr -> option mem).

Section Loops.
Context (un : ustate -> gty -> addr -> json -> hres (option uerr)).

(** unmarshal.go:465-470 *)
Fixpoint un_elems_h (st : ustate) (t : gty) (l : list addr) (js : list json) : hres (option uerr) :=
  match js, l with
  | j :: js', a :: l' =>
      hbind (un st t a j) (fun st1 e => match e with
                                        | Some _ => HOk st1 [] e
                                        | None => un_elems_h st1 t l' js'
                                        end)
  | [], _ => HOk st [] None
  | _ :: _, [] => HPanic
  end.

(** unmarshal.go:554-574 *)
Fixpoint un_members_h (st : ustate) (t : gty) (d : addr) (kvs : list (bytes * json)) : hres (option uerr) :=
  match kvs with
  | [] => HOk st [] None
  | (k, j) :: kvs' =>
      let '(m1, tmp) := zalloc t (u_mem st) in
      hbind (un (with_mem st m1) t tmp j) (fun st1 e =>
        match e with
        | Some _ => HOk st1 [] e
        | None =>
            let '(m2, b) := vcopy t tmp (u_mem st1) in
            let m3 := match nth_error m2 d with
                      | Some (VMapData old) => mwrite m2 d (VMapData (sm_add old k b))
                      | _ => m2
                      end in
            un_members_h (with_mem st1 m3) t d kvs'
        end)
  end.

(** setStructFieldAt, unmarshal.go:577-612 *)
Fixpoint set_field_h (fuel : nat) (st : ustate) (visited : list bytes) (fs : list (finfo * gty)) (l : list addr)
    (key : bytes) (j : json) : hres (list bytes * option uerr) :=
  match fuel with
  | O => HFuel
  | S n =>
      if in_strings key visited then HOk st [] (visited, None)
      else
        (fix go (idx : list nat) (st : ustate) (visited : list bytes) : hres (list bytes * option uerr) :=
           match idx with
           | [] => HOk st [] (visited, None)
           | i :: idx' =>
               match nth_error fs i, nth_error l i with
               | Some (info, t), Some a =>
                   hbind (un st t a j) (fun st1 e =>
                     match e with
                     | Some _ => HOk st1 [] (visited, e)
                     | None =>
                         match fi_deprecated_by info with
                         | None => go idx' st1 visited
                         | Some other =>
                             hbind (set_field_h n st1 visited fs l other j) (fun st2 r =>
                               match snd r with
                               | Some _ => HOk st2 [] r
                               | None => go idx' st2 (fst r)
                               end)
                         end
                     end)
               | _, _ => HPanic
               end
           end) (locate fs key) st (key :: visited)
  end.

(** unmarshal.go:627 *)
Definition call_hook (st : ustate) (name : nat) (a : addr) : hres unit :=
  match hook name (u_mem st) a with
  | Some m => HOk (with_mem st m) [{| hk_type := name; hk_var := a; hk_mem := u_mem st |}] tt
  | None => HPanic
  end.

(** unmarshal.go:614-633, for the struct variable [a] of the struct type [name] *)
Fixpoint un_fields_h (st : ustate) (name : nat) (a : addr) (fs : list (finfo * gty)) (l : list addr) (kvs : list (bytes * json))
    (errs : list (bytes * uerr)) : hres (option uerr) :=
  match kvs with
  | [] => hbind (call_hook st name a) (fun st1 _ => HOk st1 [] (match errs with [] => None | _ => Some (EMany errs) end))
  | (k, j) :: kvs' =>
      hbind (set_field_h (S (S (length fs))) st [] fs l k j) (fun st1 r =>
        un_fields_h st1 name a fs l kvs' (match snd r with Some e => errs ++ [(k, e)] | None => errs end))
  end.

(** unmarshal.go:507-529 *)
Definition un_serial_h (st : ustate) (f : factory) (a : addr) (j : json) : hres (option uerr) :=
  match f with
  | NoFactory => HOk st [] (Some EFactory)
  | NilFactory => HPanic
  | Makes name =>
      let s := TStruct name (env name) in
      let '(m1, b) := zalloc s (u_mem st) in
      hbind (un (with_mem st m1) s b j) (fun st1 e =>
        match e with
        | Some _ => HOk st1 [] e
        | None => HOk (with_mem st1 (mwrite (u_mem st1) a (VIface (Some (DynPtr b s))))) [] None
        end)
  end.
End Loops.

(** unmarshalValue of every kind: the lines that Unmarshal.v cites at [unm] *)
Fixpoint unm_h (fuel : nat) (st : ustate) (t : gty) (a : addr) (j : json) {struct fuel} : hres (option uerr) :=
  match fuel with
  | O => HFuel
  | S n =>
      let std := fun (st : ustate) (k : ustate -> hres (option uerr)) =>
        let '(m1, u) := indirect env t a (u_mem st) in
        match u with
        | Some b => let '(m2, e) := call_std time_json std_ok m1 b (String_ j) in HOk (with_mem st m2) [] e
        | None => k (with_mem st m1)
        end in
      let elem := fun (st : ustate) (t' : gty) =>
        match nth_error (u_mem st) a with
        | Some (VPtr (Some b)) => unm_h n st (resolve env t') b j
        | _ => HPanic
        end in
      let scalar := fun (st : ustate) =>
        match step_scalar match_us match_eu to_bool parse_time j t with
        | Write c => HOk (with_mem st (mwrite (u_mem st) a c)) [] None
        | Keep => HOk st [] None
        | Into t' => elem st t'
        | First t' =>
            let '(m1, l) := resize 1 (resolve env t') a (u_mem st) false in
            match l with
            | b :: _ => unm_h n (with_mem st m1) (resolve env t') b j
            | [] => HPanic
            end
        | Fail e => HOk st [] (Some e)
        | Panic => HPanic
        end in
      match j with
      | JNull => HOk (with_mem st (set_zero t a (u_mem st))) [] None
      | JPtr p => lift (set_pointer_value st p a t)
      | JInt _ | JBool _ | JFloat _ _ => std st scalar
      | JString _ => match t with TTime => scalar st | _ => std st scalar end
      | JArray l =>
          std st (fun st =>
            match t with
            | TJsonVal KArray =>
                match nth_error (u_mem st) a with
                | Some (VJson (Some (JArray old))) => HOk (with_mem st (mwrite (u_mem st) a (VJson (Some (JArray (array_add old l)))))) [] None
                | _ => HPanic
                end
            | TJsonPtr KArray | TJsonObj => HOk (with_mem st (mwrite (u_mem st) a (VJson (Some j)))) [] None
            | TJsonVal _ | TJsonPtr _ => HOk st [] (Some EMismatch)
            | TString | TTri => HOk (with_mem st (mwrite (u_mem st) a (VString (String_ j)))) [] None
            | TPtr t' => if is_list_kind t' then elem st t' else HOk st [] (Some EMismatch)
            | TIface => HOk (with_mem st (mwrite (u_mem st) a (VIface (Some (DynJsons l))))) [] None
            | TMethods | TSer _ _ => HPanic
            | TArray size t' =>
                if negb (Nat.eqb size (length l)) then HOk st [] (Some EArrayLength)
                else un_elems_h (unm_h n) st t' (elems_of a (u_mem st)) l
            | TSlice t' =>
                let '(m1, vars) := resize (length l) (resolve env t') a (u_mem st) true in
                un_elems_h (unm_h n) (with_mem st m1) (resolve env t') vars l
            | _ => HOk st [] (Some EMismatch)
            end)
      | JDict nid kvs =>
          hbind (lift (if 0 <? nid then save_node_value st nid a t else UOk st tt)) (fun st _ =>
          std st (fun st =>
            match t with
            | TJsonVal KDict =>
                match nth_error (u_mem st) a with
                | Some (VJson (Some (JDict id old))) => HOk (with_mem st (mwrite (u_mem st) a (VJson (Some (JDict id (dict_update old j)))))) [] None
                | _ => HPanic
                end
            | TJsonPtr KDict | TJsonObj => HOk (with_mem st (mwrite (u_mem st) a (VJson (Some j)))) [] None
            | TJsonVal _ | TJsonPtr _ => HOk st [] (Some EMismatch)
            | TString | TTri => HOk (with_mem st (mwrite (u_mem st) a (VString (String_ j)))) [] None
            | TMap t' =>
                let '(m1, d) := map_data a (u_mem st) in
                un_members_h (unm_h n) (with_mem st m1) (resolve env t') d kvs
            | TMapOther _ => let '(m1, _) := map_data a (u_mem st) in HOk (with_mem st m1) [] (Some EMapKey)
            | TStruct name fs => un_fields_h (unm_h n) st name a fs (fields_of a (u_mem st)) kvs []
            | TIface | TMethods => HOk st [] (Some EInterface)
            | TSer _ f => un_serial_h (unm_h n) st f a j
            | TPtr t' => if is_dict_kind t' then elem st t' else HOk st [] (Some EMismatch)
            | _ => HOk st [] (Some EMismatch)
            end))
      end
  end.

(** Unmarshal(&x, keys...), unmarshal.go:41-72, and the calls. *)
Definition Unmarshal_h (fuel : nat) (m : mem) (t : gty) (a : addr) (j : json) (keys : list bytes) : utop * list hcall :=
  match (match keys with [] => ROk (receiver j) | _ => Get (receiver j) keys end) with
  | RErr e => (TopGet e, [])
  | ROk jo =>
      match unm_h fuel {| u_mem := m; u_sess := [] |} (resolve env t) a jo with
      | HOk st log None => (TopOk (u_mem st), log)
      | HOk st log (Some e) => (TopErr (u_mem st) e, log)
      | HPanic => (TopPanic, [])
      | HFuel => (TopFuel, [])
      end
  end.
End UnmHook.
