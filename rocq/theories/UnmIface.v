(** Unmarshal.v again, with the pointers that are held in interface{} variables
    followed, std_json.go:37-89. *)
From Verif Require Import Base Strconv SortedMap Json Printer Heap Gotypes Marshal Access Unmarshal.

(** reflect.Ptr as the kind of a variable *)
Definition pointer_kind (t : gty) : bool := match t with TPtr _ | TJsonPtr _ => true | _ => false end.

Section UnmIface.
Context (env : nat -> list (finfo * gty)).
Context (locate : list (finfo * gty) -> bytes -> list nat).
Context (match_us match_eu : bytes -> bool) (to_bool : bytes -> bool)
  (parse_time : bytes -> option bytes) (time_json : bytes -> option (option bytes)) (std_ok : bytes -> bool).

(** indirectStdUnmarshaler, std_json.go:37-89, with lines 51-58: an interface{}
    that holds a non-nil pointer to a variable that is a pointer itself is
    followed, at most [hops] times in all; [None]: it would go on.  The test of
    lines 66-69 never holds here: a pointer that was held in an interface{}
    leads to a pointer, and a pointer variable is addressable, whereas what is
    held in an interface{} is not, so that the two reflect.Values differ. *)
Fixpoint chase (hops : nat) : gty -> addr -> mem -> option (mem * option addr) :=
  fix go (t : gty) (a : addr) (m : mem) {struct t} : option (mem * option addr) :=
    match t with
    | TStd | TTime => Some (m, Some a)
    | TPtr t' =>
        match nth_error m a with
        | Some (VPtr (Some b)) => go t' b m
        | _ => let '(m1, b) := zalloc (resolve env t') m in go t' b (mwrite m1 a (VPtr (Some b)))
        end
    | TJsonPtr k =>
        match nth_error m a with
        | Some (VJson (Some _)) => Some (m, None)
        | _ => Some (mwrite m a (VJson (Some (zero_json k))), None)
        end
    | TIface =>
        match nth_error m a with
        | Some (VIface (Some (DynPtr b t'))) =>
            if pointer_kind t' then match hops with O => None | S hops' => chase hops' t' b m end else Some (m, None)
        | _ => Some (m, None)
        end
    | _ => Some (m, None)
    end.

(** As [unm] of Unmarshal.v, but for [chase]: unmarshal.go:74-84, 148-150, 219-221,
    299-304, 416-418, 477-482, the arrays' and dicts' _unmarshalValue,
    420-547, and tryStdUnmarshal, std_json.go:25-31. *)
Fixpoint unmx (fuel : nat) (st : ustate) (t : gty) (a : addr) (j : json) {struct fuel} : ures (option uerr) :=
  match fuel with
  | O => UFuel
  | S n =>
      let std := fun (st : ustate) (k : ustate -> ures (option uerr)) =>
        match chase n t a (u_mem st) with
        | None => UFuel                         (* as yet; the loop of lines 50-86 goes on *)
        | Some (m1, Some b) => let '(m2, e) := call_std time_json std_ok m1 b (String_ j) in UOk (with_mem st m2) e
        | Some (m1, None) => k (with_mem st m1)
        end in
      let elem := fun (st : ustate) (t' : gty) =>
        match nth_error (u_mem st) a with
        | Some (VPtr (Some b)) => unmx n st (resolve env t') b j
        | _ => UPanic                           (* not reached: indirect has allocated it *)
        end in
      let scalar := fun (st : ustate) =>
        match step_scalar match_us match_eu to_bool parse_time j t with
        | Write c => UOk (with_mem st (mwrite (u_mem st) a c)) None
        | Keep => UOk st None
        | Into t' => elem st t'
        | First t' =>
            let '(m1, l) := resize 1 (resolve env t') a (u_mem st) false in
            match l with
            | b :: _ => unmx n (with_mem st m1) (resolve env t') b j
            | [] => UPanic                      (* not reached *)
            end
        | Fail e => UOk st (Some e)
        | Panic => UPanic
        end in
      match j with
      | JNull => UOk (with_mem st (set_zero t a (u_mem st))) None
      | JPtr p => set_pointer_value st p a t
      | JInt _ | JBool _ | JFloat _ _ => std st scalar
      | JString _ => match t with TTime => scalar st | _ => std st scalar end
      | JArray l =>
          std st (fun st =>
            match t with
            | TJsonVal KArray =>
                match nth_error (u_mem st) a with
                | Some (VJson (Some (JArray old))) => UOk (with_mem st (mwrite (u_mem st) a (VJson (Some (JArray (array_add old l)))))) None
                | _ => UPanic                   (* not reached *)
                end
            | TJsonPtr KArray | TJsonObj => UOk (with_mem st (mwrite (u_mem st) a (VJson (Some j)))) None
            | TJsonVal _ | TJsonPtr _ => UOk st (Some EMismatch)
            | TString | TTri => UOk (with_mem st (mwrite (u_mem st) a (VString (String_ j)))) None
            | TPtr t' => if is_list_kind t' then elem st t' else UOk st (Some EMismatch)
            | TIface => UOk (with_mem st (mwrite (u_mem st) a (VIface (Some (DynJsons l))))) None
            | TMethods | TSer _ _ => UPanic
            | TArray size t' =>
                if negb (Nat.eqb size (length l)) then UOk st (Some EArrayLength)
                else un_elems (unmx n) st t' (elems_of a (u_mem st)) l
            | TSlice t' =>
                let '(m1, vars) := resize (length l) (resolve env t') a (u_mem st) true in
                un_elems (unmx n) (with_mem st m1) (resolve env t') vars l
            | _ => UOk st (Some EMismatch)
            end)
      | JDict nid kvs =>
          ubind (if 0 <? nid then save_node_value st nid a t else UOk st tt) (fun st _ =>
          std st (fun st =>
            match t with
            | TJsonVal KDict =>
                match nth_error (u_mem st) a with
                | Some (VJson (Some (JDict id old))) => UOk (with_mem st (mwrite (u_mem st) a (VJson (Some (JDict id (dict_update old j)))))) None
                | _ => UPanic                   (* not reached *)
                end
            | TJsonPtr KDict | TJsonObj => UOk (with_mem st (mwrite (u_mem st) a (VJson (Some j)))) None
            | TJsonVal _ | TJsonPtr _ => UOk st (Some EMismatch)
            | TString | TTri => UOk (with_mem st (mwrite (u_mem st) a (VString (String_ j)))) None
            | TMap t' =>
                let '(m1, d) := map_data a (u_mem st) in
                un_members (unmx n) (with_mem st m1) (resolve env t') d kvs
            | TMapOther _ => let '(m1, _) := map_data a (u_mem st) in UOk (with_mem st m1) (Some EMapKey)
            | TStruct _ fs => un_fields locate (unmx n) st fs (fields_of a (u_mem st)) kvs []
            | TIface | TMethods => UOk st (Some EInterface)
            | TSer _ f => un_serial env (unmx n) st f a j
            | TPtr t' => if is_dict_kind t' then elem st t' else UOk st (Some EMismatch)
            | _ => UOk st (Some EMismatch)
            end))
      end
  end.

(** Unmarshal(&x, keys...), unmarshal.go:41-72, as in Unmarshal.v *)
Definition UnmarshalX (fuel : nat) (m : mem) (t : gty) (a : addr) (j : json) (keys : list bytes) : utop :=
  match (match keys with [] => ROk (receiver j) | _ => Get (receiver j) keys end) with
  | RErr e => TopGet e
  | ROk jo =>
      match unmx fuel {| u_mem := m; u_sess := [] |} (resolve env t) a jo with
      | UOk st None => TopOk (u_mem st)
      | UOk st (Some e) => TopErr (u_mem st) e
      | UPanic => TopPanic
      | UFuel => TopFuel
      end
  end.
End UnmIface.
