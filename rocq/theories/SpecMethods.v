(** Vocabulary for types with an UnmarshalJSON method: variables of such types
    and pointers to them.  Does not mention the functions that unmarshal. *)
From Verif Require Import Base Strconv Json SpecJson Printer Heap Gotypes Unmarshal SpecUnmarshal.

(** The types whose pointers have UnmarshalJSON: the caller's, and time.Time. *)
Definition has_method (e : gty) : Prop := e = TStd \/ e = TTime.

(** [pointers_to e t]: [t] is e, *e, **e, ... *)
Inductive pointers_to (e : gty) : gty -> Prop :=
| pt_here : pointers_to e e
| pt_more t : pointers_to e t -> pointers_to e (TPtr t).

(** [leads m e t a c]: in memory [m], following the pointers of the variable at
    [a] of type [t] ends at the variable at [c] of type [e]. *)
Inductive leads (m : mem) (e : gty) : gty -> addr -> addr -> Prop :=
| ld_here a : leads m e e a a
| ld_more t a b c : nth_error m a = Some (VPtr (Some b)) -> leads m e t b c -> leads m e (TPtr t) a c.

(** Memory [m1] is memory [m] but that nil pointers have been given something
    new to point to. *)
Definition only_nil_pointers_set (m m1 : mem) : Prop :=
  forall x c, nth_error m x = Some c ->
    nth_error m1 x = Some c \/ (c = VPtr None /\ exists b, nth_error m1 x = Some (VPtr (Some b)) /\ (length m <= b)%nat).

(** Values whose text UnmarshalJSON is given: not null, not a reference, and
    not a dict that references stand for. *)
Definition ordinary (j : json) : Prop :=
  match j with JNull | JPtr _ => False | JDict n _ => n <= 0 | _ => True end.

(** What the method makes of a text: of the caller's types only whether it
    accepts the text is known, and the variable shows the text it was given. *)
Definition method_result (time_json : bytes -> option (option bytes)) (std_ok : bytes -> bool) (e : gty) (text : bytes) : option vcell :=
  match e with
  | TTime => option_map VTime (time_json text)
  | _ => if std_ok text then Some (VStd (Some text)) else None
  end.
