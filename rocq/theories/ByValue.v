(** Model of Unmarshal(x) where x is not a pointer, or is nil: what reflect then
    has is a value that can neither be set nor addressed.  unmarshal.go,
    unmarshal_session.go, std_json.go:25-89.

    The value that is passed is a copy of the caller's; it is given here as a
    variable of its own in memory (with the variables of its parts, if it is a
    struct or array).  Slices, maps and pointers in it lead to the caller's
    variables, which can be set as usual. *)
From Verif Require Import Base Strconv SortedMap Json Printer Access JErrors Heap Gotypes Unmarshal.

Section ByValue.
Context (env : nat -> list (finfo * gty)) (locate : list (finfo * gty) -> bytes -> list nat)
  (match_us match_eu : bytes -> bool) (to_bool : bytes -> bool)
  (parse_time : bytes -> option bytes) (time_json : bytes -> option (option bytes)) (std_ok : bytes -> bool).
Notation unm := (unm env locate match_us match_eu to_bool parse_time time_json std_ok).
Notation indirect := (indirect env).
Notation resolve := (resolve env).
Notation call_std := (call_std time_json std_ok).
Notation step_scalar := (step_scalar match_us match_eu to_bool parse_time).

(** indirectStdUnmarshaler, std_json.go:37-89, on a value that has no address:
    pointer methods are not looked for (line 44), and a nil pointer cannot be
    set (line 71), which panics: [None]. *)
Definition indirect_value (t : gty) (a : addr) (m : mem) : option (mem * option addr) :=
  match t with
  | TPtr t' =>
      match nth_error m a with
      | Some (VPtr (Some b)) => Some (indirect t' b m)
      | _ => None
      end
  | TJsonPtr _ =>
      match nth_error m a with
      | Some (VJson (Some _)) => Some (m, None)
      | _ => None
      end
  | _ => Some (m, None)
  end.

(** Where a scalar is written into the JSON object that a pointer leads to, and
    not into the variable: unmarshal.go:101-109, 167-175, 237-246, 250-258,
    338-354. *)
Definition in_place (j : json) (t : gty) : bool :=
  match j, t with
  | (JInt _ | JBool _ | JFloat _ _), TJsonPtr KString => true
  | JFloat _ _, TJsonPtr KInt => true
  | JString _, TJsonPtr KBool => true
  | _, _ => false
  end.

(** unmarshalValue of every kind (unmarshal.go:74-84, 148-150, 219-221, 299-304,
    416-418, 477-482 and what they call; the loop over elements is 465-470) on a
    value that cannot be set.  Types
    with UnmarshalJSON are taken to be structs.  A dict into a struct panics in
    callStructAfterUnmarshal at the latest (line 648: val.Addr()), and before
    that the loop over its members only returns errors or panics. *)
Fixpoint unm_value (fuel : nat) (st : ustate) (t : gty) (a : addr) (j : json) {struct fuel} : ures (option uerr) :=
  match fuel with
  | O => UFuel
  | S n =>
      let std := fun (k : ustate -> ures (option uerr)) =>
        match indirect_value t a (u_mem st) with
        | None => UPanic
        | Some (m1, Some b) => let '(m2, e) := call_std m1 b (String_ j) in UOk (with_mem st m2) e
        | Some (m1, None) => k (with_mem st m1)
        end in
      let elem := fun (st : ustate) (t' : gty) =>
        match nth_error (u_mem st) a with
        | Some (VPtr (Some b)) => unm n st (resolve t') b j
        | _ => UPanic
        end in
      let scalar := fun (st : ustate) =>
        match step_scalar j t with
        | Write c => if in_place j t then UOk (with_mem st (mwrite (u_mem st) a c)) None else UPanic
        | Keep => UOk st None
        | Into t' => elem st t'
        | First t' =>
            match nth_error (u_mem st) a with
            | Some (VSlice (Some (b :: _, len))) => if Nat.eqb len 1 then unm n st (resolve t') b j else UPanic
            | _ => UPanic
            end
        | Fail e => UOk st (Some e)
        | Panic => UPanic
        end in
      match j with
      | JNull => UOk st None                    (* line 75: val.CanSet() *)
      | JPtr p => set_pointer_value st p a TOther (* val.Set panics, now or later *)
      | JInt _ | JBool _ | JFloat _ _ => std scalar
      | JString _ => match t with TTime => scalar st | _ => std scalar end
      | JArray l =>
          std (fun st =>
            match t with
            | TJsonVal KArray | TJsonPtr KArray | TJsonObj => UPanic
            | TJsonVal _ | TJsonPtr _ => UOk st (Some EMismatch)
            | TString | TTri => UPanic
            | TPtr t' => if is_list_kind t' then elem st t' else UOk st (Some EMismatch)
            | TIface | TMethods | TSer _ _ => UPanic
            | TArray size t' =>
                if negb (Nat.eqb size (length l)) then UOk st (Some EArrayLength)
                else un_elems (unm_value n) st t' (elems_of a (u_mem st)) l
            | TSlice t' =>
                match nth_error (u_mem st) a with
                | Some (VSlice (Some (vars, len))) =>
                    if Nat.eqb len (length l) then un_elems (unm n) st (resolve t') (firstn len vars) l else UPanic
                | _ => UPanic
                end
            | _ => UOk st (Some EMismatch)
            end)
      | JDict nid kvs =>                        (* line 478: not val.CanAddr() *)
          std (fun st =>
            match t with
            | TJsonVal KDict | TJsonPtr KDict | TJsonObj => UPanic
            | TJsonVal _ | TJsonPtr _ => UOk st (Some EMismatch)
            | TString | TTri => UPanic
            | TMap t' =>
                match nth_error (u_mem st) a with
                | Some (VMap (Some d)) => un_members (unm n) st (resolve t') d kvs
                | _ => UPanic
                end
            | TMapOther _ =>
                match nth_error (u_mem st) a with
                | Some (VMap (Some d)) => UOk st (Some EMapKey)
                | _ => UPanic
                end
            | TStruct _ _ | TNamed _ | TTime | TStd => UPanic
            | TIface | TMethods => UOk st (Some EInterface)
            | TSer _ f =>                       (* line 529: val.Set *)
                match un_serial env (unm n) st f a j with UOk _ None => UPanic | r => r end
            | TPtr t' => if is_dict_kind t' then elem st t' else UOk st (Some EMismatch)
            | _ => UOk st (Some EMismatch)
            end)
      end
  end.

(** What is passed to Unmarshal, if it is no pointer to a variable: nil or a nil
    pointer; or the copy at [a] of a value of type [t]. *)
Inductive passed : Type :=
| Nil
| Copy (t : gty) (a : addr).

(** jsonUnmarshal, unmarshal.go:57-72.  For nil and nil pointers reflect.Indirect
    gives the invalid Value, whose Type() panics (std_json.go:44,
    unmarshal.go:300); null does not ask for it (line 75), nor does a reference. *)
Definition Unmarshal_passed (fuel : nat) (m : mem) (x : passed) (j : json) (keys : list bytes) : utop :=
  match (match keys with [] => ROk (receiver j) | _ => Get (receiver j) keys end) with
  | RErr e => TopGet e
  | ROk jo =>
      match x with
      | Nil => match jo with JNull | JPtr _ => TopOk m | _ => TopPanic end
      | Copy t a =>
          match unm_value fuel {| u_mem := m; u_sess := [] |} (resolve t) a jo with
          | UOk st None => TopOk (u_mem st)
          | UOk st (Some e) => TopErr (u_mem st) e
          | UPanic => TopPanic
          | UFuel => TopFuel
          end
      end
  end.
End ByValue.
