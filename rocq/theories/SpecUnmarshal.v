(** Vocabulary for the properties of Unmarshal: proper types, well-typed
    memory, and which JSON values fit which targets.  Does not mention the
    functions that unmarshal. *)
From Verif Require Import Base Strconv SortedMap Json SpecJson Heap Gotypes Unmarshal.

Section Types.
Context (env : nat -> list (finfo * gty)).

(** ** Proper types *)

(** A struct type inside a pointer, slice or map type is given by its name;
    elsewhere it is spelt out, with the fields of its name. *)
Fixpoint proper (t : gty) : Prop :=
  match t with
  | TSlice t' | TMap t' | TMapOther t' =>
      match t' with TNamed _ => True | TStruct _ _ => False | _ => proper t' end
  | TPtr t' =>
      match t' with TNamed _ => True | TStruct _ _ | TJsonVal _ => False | _ => proper t' end
  | TArray _ t' => proper t'
  | TStruct n fs => fs = env n /\
      (fix go (fs : list (finfo * gty)) : Prop :=
         match fs with [] => True | (_, t') :: fs' => proper t' /\ go fs' end) fs
  | TNamed _ => False
  | _ => True
  end.

(** All declared struct types are proper. *)
Definition env_ok : Prop := forall n, proper (TStruct n (env n)).

(** The type a type expression stands for. *)
Definition named (t : gty) : gty := match t with TNamed n => TStruct n (env n) | _ => t end.

(** ** Well-typed memory *)

(** What a cell is: a variable of a type, or the contents of a map with
    elements of a type. *)
Inductive vty : Type :=
| Var (t : gty)
| Data (t : gty).

Definition kind_of (j : json) : option jkind :=
  match j with
  | JDict _ _ => Some KDict | JArray _ => Some KArray | JString _ => Some KString
  | JInt _ => Some KInt | JFloat _ _ => Some KFloat | JBool _ => Some KBool
  | _ => None
  end.

(** Every variable a cell refers to has the type it should have. *)
Inductive cell_ok (T : list vty) : vcell -> vty -> Prop :=
| co_bool b : cell_ok T (VBool b) (Var TBool)
| co_int z k : cell_ok T (VInt z) (Var (TInt k))
| co_float f bit : cell_ok T (VFloat f) (Var (TFloat bit))
| co_string s : cell_ok T (VString s) (Var TString)
| co_tri s : cell_ok T (VString s) (Var TTri)
| co_time x : cell_ok T (VTime x) (Var TTime)
| co_nil_slice t : cell_ok T (VSlice None) (Var (TSlice t))
| co_slice l n t : Forall (fun a => nth_error T a = Some (Var (named t))) l -> (n <= length l)%nat ->
    cell_ok T (VSlice (Some (l, n))) (Var (TSlice t))
| co_array l t : Forall (fun a => nth_error T a = Some (Var t)) l -> cell_ok T (VArray l) (Var (TArray (length l) t))
| co_nil_map t : cell_ok T (VMap None) (Var (TMap t))
| co_map d t : nth_error T d = Some (Data (named t)) -> cell_ok T (VMap (Some d)) (Var (TMap t))
| co_nil_map' t : cell_ok T (VMap None) (Var (TMapOther t))
| co_map' d t : nth_error T d = Some (Data (named t)) -> cell_ok T (VMap (Some d)) (Var (TMapOther t))
| co_data kvs t : Forall (fun kv => nth_error T (snd kv) = Some (Var t)) kvs -> cell_ok T (VMapData kvs) (Data t)
| co_nil_ptr t : cell_ok T (VPtr None) (Var (TPtr t))
| co_ptr b t : nth_error T b = Some (Var (named t)) -> cell_ok T (VPtr (Some b)) (Var (TPtr t))
| co_struct l n fs : Forall2 (fun a f => nth_error T a = Some (Var (snd f))) l fs -> cell_ok T (VStruct l) (Var (TStruct n fs))
| co_iface d : cell_ok T (VIface d) (Var TIface)
| co_methods d : cell_ok T (VIface d) (Var TMethods)
| co_jsonobj j : cell_ok T (VJson j) (Var TJsonObj)
| co_jsonptr j k : cell_ok T (VJson j) (Var (TJsonPtr k))
| co_jsonval j k : kind_of j = Some k -> cell_ok T (VJson (Some j)) (Var (TJsonVal k))
| co_std s : cell_ok T (VStd s) (Var TStd)
| co_other : cell_ok T VOther (Var TOther)
| co_serial d n f : cell_ok T (VIface d) (Var (TSer n f)).

(** Memory whose cells have the types [T]. *)
Definition mem_ok (T : list vty) (m : mem) : Prop := Forall2 (cell_ok T) m T.

End Types.

(** ** Values and targets that do not fit *)

(** No reference anywhere. *)
Definition without_references (j : json) : Prop := forall n, ~ subvalue (JPtr n) j.

(** Every reference leads out of the value: the dict that it stands for is not
    in it.  So it is with a part of a document that refers to other parts. *)
Definition references_lead_out (j : json) : Prop := forall n kvs, 0 < n -> subvalue (JPtr n) j -> ~ subvalue (JDict n kvs) j.

(** No boolean and no fraction anywhere. *)
Definition without_bools_and_floats (j : json) : Prop :=
  (forall b, ~ subvalue (JBool b) j) /\ (forall f bit, ~ subvalue (JFloat f bit) j).

(** The types a type is made of, without looking behind names. *)
Inductive part (x : gty) : gty -> Prop :=
| part_refl : part x x
| part_slice t : part x t -> part x (TSlice t)
| part_array n t : part x t -> part x (TArray n t)
| part_map t : part x t -> part x (TMap t)
| part_mapo t : part x t -> part x (TMapOther t)
| part_ptr t : part x t -> part x (TPtr t)
| part_field n i t fs : In (i, t) fs -> part x t -> part x (TStruct n fs).

Definition no_unsigned (t : gty) : Prop := forall b, ~ part (TInt (Unsigned b)) t.
Definition no_methods (t : gty) : Prop := ~ part TMethods t /\ forall n f, ~ part (TSer n f) t.

(** The fields with a given name. *)
Definition by_name (fs : list (finfo * gty)) (k : bytes) : list nat :=
  filter (fun i => match nth_error fs i with Some (f, _) => bseq (fi_name f) k | None => false end) (seq 0 (length fs)).

(** ** Which variables a variable leads to *)

Definition mentions (c : vcell) : list addr :=
  match c with
  | VSlice (Some (l, _)) | VArray l | VStruct l => l
  | VMap (Some d) => [d]
  | VMapData kvs => map snd kvs
  | VPtr (Some b) | VIface (Some (DynPtr b _)) => [b]
  | _ => []
  end.

Inductive reaches (m : mem) (a : addr) : addr -> Prop :=
| reach_refl : reaches m a a
| reach_step x c y : reaches m a x -> nth_error m x = Some c -> In y (mentions c) -> reaches m a y.

(** The fields that a member name selects: those of that name, and those that
    the deprecated-by tags of selected fields name. *)
Inductive selects (locate : list (finfo * gty) -> bytes -> list nat) (fs : list (finfo * gty)) : bytes -> nat -> Prop :=
| sel_here k i : In i (locate fs k) -> selects locate fs k i
| sel_next k i f t other i' : In i (locate fs k) -> nth_error fs i = Some (f, t) -> fi_deprecated_by f = Some other ->
    selects locate fs other i' -> selects locate fs k i'.

(** ** Results *)

(** A value and a target that fit: see the refutations beside C34. *)
Definition suitable (env : nat -> list (finfo * gty)) (j : json) (t : gty) : Prop :=
  references_lead_out j /\ proper env t /\ no_methods t /\ (forall n, no_methods (TStruct n (env n))) /\
  (without_bools_and_floats j \/ (no_unsigned t /\ forall n, no_unsigned (TStruct n (env n)))).

(** The result with the errors of some members: none is nil. *)
Definition finish (m : mem) (errs : list (bytes * uerr)) : utop :=
  match errs with [] => TopOk m | _ => TopErr m (EMany errs) end.
