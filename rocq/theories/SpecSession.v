(** Vocabulary for node references during unmarshalling (C33): histories of
    definitions and references, in any order. *)
From Verif Require Import Base Json SpecJson Heap Gotypes Unmarshal SpecUnmarshal.

(** What happens while a JSON value is unmarshalled, as far as references are
    concerned. *)
Inductive uop : Type :=
| Define (n : Z) (b : addr) (tb : gty)   (* node n is read into variable b of type tb *)
| Refer (n : Z) (a : addr) (t : gty)     (* the reference <n> is read into variable a of type t *)
| Store (a : addr) (c : vcell)           (* anything else is written to variable a *)
| Grow (l : list vcell).                 (* new variables *)

(** The variable of node [n]: the last one so far, *)
Fixpoint last_def (n : Z) (h : list uop) : option (addr * gty) :=
  match h with
  | [] => None
  | op :: h' =>
      match last_def n h' with
      | Some x => Some x
      | None => match op with Define n' b tb => if n' =? n then Some (b, tb) else None | _ => None end
      end
  end.
(** or the first one to come. *)
Fixpoint first_def (n : Z) (h : list uop) : option (addr * gty) :=
  match h with
  | [] => None
  | Define n' b tb :: h' => if n' =? n then Some (b, tb) else first_def n h'
  | _ :: h' => first_def n h'
  end.
(** The node that a reference between [before] and [after] means. *)
Definition meant (n : Z) (before after : list uop) : option (addr * gty) :=
  match last_def n before with Some x => Some x | None => first_def n after end.

(** The same type; a struct type is what its name says, also where only the
    name is written. *)
Inductive same_type : gty -> gty -> Prop :=
| same_refl t : same_type t t
| same_slice t t' : same_type t t' -> same_type (TSlice t) (TSlice t')
| same_array n t t' : same_type t t' -> same_type (TArray n t) (TArray n t')
| same_map t t' : same_type t t' -> same_type (TMap t) (TMap t')
| same_map_other t t' : same_type t t' -> same_type (TMapOther t) (TMapOther t')
| same_ptr t t' : same_type t t' -> same_type (TPtr t) (TPtr t')
| same_struct n fs fs' : same_type (TStruct n fs) (TStruct n fs')
| same_named n fs : same_type (TNamed n) (TStruct n fs)
| same_struct_named n fs : same_type (TStruct n fs) (TNamed n)
| same_serial n f f' : same_type (TSer n f) (TSer n f').

(** A variable of type [t] can hold a pointer to a variable of type [tb]. *)
Definition can_point (t tb : gty) : Prop :=
  match t with
  | TPtr t' => same_type t' tb
  | TIface => True
  | TSer _ (Makes n) => same_type (TNamed n) tb
  | _ => False
  end.
(** The pointer. *)
Definition pointer_to (t : gty) (b : addr) (tb : gty) : vcell :=
  match t with TIface | TSer _ _ => VIface (Some (DynPtr b tb)) | _ => VPtr (Some b) end.

(** The variables that are written or that references are read into. *)
Definition touched (op : uop) : list addr :=
  match op with Define _ _ _ => [] | Refer _ a _ => [a] | Store a _ => [a] | Grow _ => [] end.

(** No reference and no node anywhere. *)
Definition no_marks (j : json) : Prop :=
  (forall n, ~ subvalue (JPtr n) j) /\ (forall n kvs, subvalue (JDict n kvs) j -> n <= 0).

(** The definitions and references of a history are nodes and references of a document. *)
Definition marked_in (doc : json) (op : uop) : Prop :=
  match op with
  | Define n _ _ => exists kvs, 0 < n /\ subvalue (JDict n kvs) doc
  | Refer n _ _ => subvalue (JPtr n) doc
  | _ => True
  end.

(** ** References between the fields of a struct *)

(** The variable that the member [k] is read into, if it is one field without
    a deprecated-by tag. *)
Definition field_of (locate : list (finfo * gty) -> bytes -> list nat) (fs : list (finfo * gty)) (l : list addr) (k : bytes)
    (a : addr) (t : gty) : Prop :=
  exists i f, locate fs k = [i] /\ nth_error fs i = Some (f, t) /\ fi_deprecated_by f = None /\ nth_error l i = Some a.

(** The type of a struct or a map, not of a pointer. *)
Definition by_value (t : gty) : Prop := match t with TStruct _ _ | TMap _ => True | _ => False end.

(** A member is a reference, a node without further nodes and references that
    is read by value, or a value without nodes and references. *)
Definition flat_member (t : gty) (j : json) : Prop :=
  (exists n, j = JPtr n) \/
  (exists n ms, j = JDict n ms /\ 0 < n /\ by_value t /\ forall k x, In (k, x) ms -> no_marks x) \/
  no_marks j.
