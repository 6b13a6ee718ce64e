(** What Unmarshal does with a value that is passed by itself and not by a
    pointer to it (C57). *)
From Verif Require Import Base Json Heap Gotypes Unmarshal SpecUnmarshal SpecConvert SpecContain.

(** The types a value may have that is passed so: pointers are no such values,
    and an interface gives the value that it holds. *)
Definition by_itself (t : gty) : Prop :=
  match t with
  | TPtr _ | TJsonPtr _ | TIface | TMethods | TSer _ _ | TJsonObj => False
  | TNamed _ => False                           (* given as TStruct *)
  | _ => True
  end.

(** A slice at [a] of length [n]; a map that is not nil. *)
Definition has_length (m : mem) (a : addr) (n : nat) : Prop := exists l, nth_error m a = Some (VSlice (Some (l, n))).
Definition real_map (m : mem) (a : addr) : Prop := exists d, nth_error m a = Some (VMap (Some d)).

(** JSON values of this kind *)
Definition of_kind (k : jkind) (j : json) : Prop :=
  match k, j with
  | KString, JString _ | KInt, JInt _ | KBool, JBool _ | KFloat, JFloat _ _ | KArray, JArray _ | KDict, JDict _ _ => True
  | _, _ => False
  end.

Section Table.
Context (amount : bytes -> bytes).

(** There is nothing to set, or the types do not fit: nil or this error.  Types
    with an UnmarshalJSON method are structs here: the method needs a pointer. *)
Definition plain_struct (t : gty) : Prop := t = TTime \/ t = TStd.
Definition gives_up (t : gty) (j : json) (e : option uerr) : Prop :=
  match j with
  | JInt _ | JBool _ | JFloat _ _ => ignored j t /\ e = None \/ (mismatched j t \/ plain_struct t) /\ e = Some EMismatch
  | JString s => ignored j t /\ e = None \/ (mismatched j t \/ t = TStd) /\ e = Some EMismatch \/ no_number amount s t /\ e = Some ENumber
  | JArray js => (not_for_arrays t \/ plain_struct t) /\ e = Some EMismatch \/ (exists n t', t = TArray n t' /\ n <> length js) /\ e = Some EArrayLength
  | JDict _ _ => not_for_dicts t /\ e = Some EMismatch
  | JNull | JPtr _ => False
  end.

(** Unmarshal would have to set the value itself. *)
Definition would_set (m : mem) (t : gty) (a : addr) (j : json) : Prop :=
  match j with
  | JInt _ | JBool _ | JFloat _ _ => forall e, ~ gives_up t j e
  | JString s => match t with TSlice _ => ~ has_length m a 1 | _ => forall e, ~ gives_up t j e end
  | JArray js =>
      match t with
      | TSlice _ => ~ has_length m a (length js)
      | TString | TTri => True
      | TJsonVal k => k = KArray
      | _ => False
      end
  | JDict _ _ =>
      match t with
      | TMap _ | TMapOther _ => ~ real_map m a
      | TString | TTri | TStruct _ _ | TTime | TStd => True
      | TJsonVal k => k = KDict
      | _ => False
      end
  | JNull | JPtr _ => False
  end.

(** It is set through what the value leads to, without setting the value. *)
Definition takes (m : mem) (t : gty) (a : addr) (j : json) : Prop :=
  match j, t with
  | JDict _ _, (TMap _ | TMapOther _) => real_map m a
  | JArray js, TSlice _ => has_length m a (length js)
  | JArray js, TArray n _ => n = length js
  | JString _, TSlice _ => has_length m a 1
  | _, _ => False
  end.
End Table.
Definition is_json_interface (t : gty) : bool := match t with TJsonObj => true | _ => false end.

(** ** What a value leads to through slices, maps and pointers *)

(** The variables that make up the value at [a] *)
Inductive piece (m : mem) (a : addr) : addr -> Prop :=
| piece_self : piece m a a
| piece_elem l e x : nth_error m a = Some (VArray l) -> In e l -> piece m e x -> piece m a x
| piece_field l e x : nth_error m a = Some (VStruct l) -> In e l -> piece m e x -> piece m a x.

(** and those that its slices, maps and pointers hold. *)
Definition held (m : mem) (a y : addr) : Prop :=
  exists p, piece m a p /\
    ((exists l n, nth_error m p = Some (VSlice (Some (l, n))) /\ In y l) \/ nth_error m p = Some (VMap (Some y)) \/ nth_error m p = Some (VPtr (Some y))
      \/ (y = p /\ exists j, nth_error m p = Some (VJson (Some j)))). (* a pointer to one of this package's types: what it leads to *)

(** The value is a copy: nothing that it leads to leads back to it. *)
Definition own_copy (m : mem) (a : addr) : Prop :=
  forall y p, held m a y -> reaches m y p -> piece m a p -> exists j, nth_error m p = Some (VJson (Some j)).
