(** Vocabulary for AfterUnmarshal methods (C53). *)
From Verif Require Import Base Heap Hooks.

Section Spec.
Context (fields : nat -> list sfield) (declares : nat -> bool) (vars : list svar).

(** ** Go's rule for which AfterUnmarshal a struct type has *)

(** The struct type at the end of an embedding path. *)
Fixpoint type_at (T : nat) (p : list nat) : option nat :=
  match p with
  | [] => Some T
  | i :: p' => match nth_error (fields T) i with
               | Some (Embedded _ U) | Some (EmbeddedPtr _ U) => type_at U p'
               | _ => None
               end
  end.
(** The path leads to a type that declares the method. *)
Definition declared_at (T : nat) (p : list nat) : Prop := exists U, type_at T p = Some U /\ declares U = true.
(** The method at the least depth, if there is only one at that depth. *)
Definition go_selects (T : nat) (r : option (list nat)) : Prop :=
  match r with
  | Some p => declared_at T p /\ forall q, declared_at T q -> q = p \/ (length p < length q)%nat
  | None => forall p, declared_at T p -> exists q q', (length q <= length p)%nat /\ length q' = length q /\ q <> q' /\ declared_at T q /\ declared_at T q'
  end.

(** ** The parts of a struct variable *)

(** The struct of type [U] in variable [b] is embedded in the one of type [T]
    in variable [a] at path [p], by value or by pointers that are not nil. *)
Inductive part : nat -> addr -> list nat -> nat -> addr -> Prop :=
| part_self T a : part T a [] T a
| part_value T a i e U b p V c l :
    nth_error (fields T) i = Some (Embedded e U) -> nth_error vars a = Some (SStruct l) -> nth_error l i = Some b ->
    part U b p V c -> part T a (i :: p) V c
| part_pointer T a i e U q b p V c l :
    nth_error (fields T) i = Some (EmbeddedPtr e U) -> nth_error vars a = Some (SStruct l) -> nth_error l i = Some q ->
    nth_error vars q = Some (SPointer (Some b)) ->
    part U b p V c -> part T a (i :: p) V c.

(** The last step of the path is a field whose name is not exported. *)
Definition hidden (T : nat) (p : list nat) : Prop :=
  exists q i U f, p = q ++ [i] /\ type_at T q = Some U /\ nth_error (fields U) i = Some f /\
    match f with Embedded e _ | EmbeddedPtr e _ => e = false | Plain => False end.
End Spec.

(** Embedded parts before what embeds them, fields in order. *)
Inductive before : list nat -> list nat -> Prop :=
| before_inner i p : before (i :: p) []
| before_field i j p q : (i < j)%nat -> before (i :: p) (j :: q)
| before_deep i p q : before p q -> before (i :: p) (i :: q).

Section Calls.
Context (fields : nat -> list sfield) (method : nat -> option (list nat)) (by_pointer : nat -> bool) (vars : list svar).

(** The part at path [p] has an AfterUnmarshal. *)
Definition hooked (T : nat) (a : addr) (p : list nat) : Prop :=
  exists U b m, part fields vars T a p U b /\ method U = Some m.

(** On the way [m] from the struct [U] in [b] there is a nil pointer: followed
    by more, or at the end. *)
Definition nil_before_end (U : nat) (b : addr) (m : list nat) : Prop :=
  exists p i s V c e W l q, m = p ++ i :: s /\ s <> [] /\ part fields vars U b p V c /\
    nth_error (fields V) i = Some (EmbeddedPtr e W) /\
    nth_error vars c = Some (SStruct l) /\ nth_error l i = Some q /\ nth_error vars q = Some (SPointer None).
Definition nil_at_end (U : nat) (b : addr) (m : list nat) (W : nat) : Prop :=
  exists p i V c e l q, m = p ++ [i] /\ part fields vars U b p V c /\
    nth_error (fields V) i = Some (EmbeddedPtr e W) /\
    nth_error vars c = Some (SStruct l) /\ nth_error l i = Some q /\ nth_error vars q = Some (SPointer None).

(** The method of the part at path [p] cannot be called: reflect refuses since
    the part is in a field that is not exported, or there is no receiver. *)
Definition uncallable (T : nat) (a : addr) (p : list nat) : Prop :=
  exists U b m, part fields vars T a p U b /\ method U = Some m /\
    (hidden fields T p \/ nil_before_end U b m \/ exists W, nil_at_end U b m W /\ by_pointer W = false).

(** This is the call for the part at path [p]. *)
Definition is_call (T : nat) (a : addr) (p : list nat) (c : hook_call) : Prop :=
  exists U b m, part fields vars T a p U b /\ method U = Some m /\ hc_path c = p ++ m /\
    match hc_recv c with
    | Some r => part fields vars U b m (hc_type c) r
    | None => nil_at_end U b m (hc_type c)
    end.

(** Every part is a struct variable with a variable for every field, embedded
    pointers are pointer variables, and methods are found at embedded structs. *)
Definition well_typed (T : nat) (a : addr) : Prop :=
  forall p U b, part fields vars T a p U b ->
    (exists l, nth_error vars b = Some (SStruct l) /\ length l = length (fields U) /\
      forall i e V q, nth_error (fields U) i = Some (EmbeddedPtr e V) -> nth_error l i = Some q ->
        exists r, nth_error vars q = Some (SPointer r)) /\
    (forall m, method U = Some m -> type_at fields U m <> None).
End Calls.
