(** Vocabulary for objects that contain nil or themselves. *)
From Verif Require Import Base Json Heap SpecHeap SpecShare HeapRead.

(** Somewhere in [a], at any depth, there is a nil. *)
Definition nil_inside (h : heap) (a : addr) : Prop :=
  exists b c, reaches h a b /\ nth_error h b = Some c /\ In None (cell_refs c).
(** Somewhere in [a] there is an object that contains itself. *)
Definition cycle_inside (h : heap) (a : addr) : Prop :=
  exists b p, reaches h a b /\ leads h b p b /\ p <> [].

(** A call, given enough time, ends in [r]. *)
Definition ends {X} (call : nat -> outcome X) (r : outcome X) : Prop := exists n, forall k, (n <= k)%nat -> call k = r.

(** What a method does that looks at everything inside an object, where it gives
    [f v] for the value [v]: it returns for just those objects that stand for a
    value; a panic comes from a nil inside, running forever from an object that
    contains itself; a nil inside is enough for a panic if nothing contains
    itself.  (The last clause: more time does not change how a call ends.) *)
Definition looks_at_all {X} (call : nat -> outcome X) (f : json -> X) (h : heap) (a : addr) : Prop :=
  (forall x, ends call (Returns x) <-> exists v, holds h a v /\ x = f v) /\
  (ends call Panics -> nil_inside h a) /\
  ((forall k, call k = Runs) -> cycle_inside h a) /\
  (nil_inside h a -> ~ cycle_inside h a -> ends call Panics) /\
  (forall k, call k <> Runs -> ends call (call k)).

(** [r] is a copy of the value [v] in which node ids are dropped and every
    reference is nil. *)
Inductive copied (h : heap) : ref -> json -> Prop :=
| copied_ptr n : copied h None (JPtr n)
| copied_null b : nth_error h b = Some CNull -> copied h (Some b) JNull
| copied_bool b x : nth_error h b = Some (CBool x) -> copied h (Some b) (JBool x)
| copied_int b x : nth_error h b = Some (CInt x) -> copied h (Some b) (JInt x)
| copied_float b f bit : nth_error h b = Some (CFloat f bit) -> copied h (Some b) (JFloat f bit)
| copied_string b s : nth_error h b = Some (CString s) -> copied h (Some b) (JString s)
| copied_array b rs l : nth_error h b = Some (CArray rs) -> Forall2 (copied h) rs l -> copied h (Some b) (JArray l)
| copied_dict b nid rs l : nth_error h b = Some (CDict 0 rs) -> Forall2 (fun x y => fst x = fst y /\ copied h (snd x) (snd y)) rs l ->
    copied h (Some b) (JDict nid l).
