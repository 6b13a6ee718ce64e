(** Model of callStructAfterUnmarshal, unmarshal.go:635-653: which
    AfterUnmarshal methods run for a struct variable.

    The structs of the program have names (numbers).  Only embedded fields
    matter; [Plain] is every other field, and an embedded interface or an
    embedded type that is no struct (the switch has no case for these).  The
    methods called AfterUnmarshal take no arguments and no field has that name;
    embedded interfaces have no such method. *)
From Verif Require Import Base Heap.

(** A field: embedded struct, embedded pointer to a struct, each with whether
    its name is exported; or not embedded. *)
Inductive sfield : Type :=
| Embedded (exported : bool) (T : nat)
| EmbeddedPtr (exported : bool) (T : nat)
| Plain.

(** Variables: a struct with the variables of its fields, a pointer, or
    something else. *)
Inductive svar : Type :=
| SStruct (fields : list addr)
| SPointer (p : option addr)
| SOther.

(** A call: the embedding path from the struct that Unmarshal has filled to
    the receiver, the struct type that declares the method, and the receiver
    ([None]: nil). *)
Record hook_call := { hc_path : list nat; hc_type : nat; hc_recv : option addr }.

(** How far it got: the calls made, and whether the last thing that happened
    was a panic. *)
Record hook_run := { hr_calls : list hook_call; hr_panic : bool }.
Definition hook_none : hook_run := {| hr_calls := []; hr_panic := false |}.
Definition hook_fail : hook_run := {| hr_calls := []; hr_panic := true |}.
Definition hook_then (r r' : hook_run) : hook_run :=
  if hr_panic r then r else {| hr_calls := hr_calls r ++ hr_calls r'; hr_panic := hr_panic r' |}.

Section Hooks.
Context (fields : nat -> list sfield).        (* of each struct type *)
(** MethodByName("AfterUnmarshal") of a pointer to the struct: the embedding
    path to the method that Go's rules select; [[]] is its own. *)
Context (method : nat -> option (list nat)).
(** The method that a type declares has a pointer receiver. *)
Context (by_pointer : nat -> bool).
Context (vars : list svar).

Definition field_var (a : addr) (i : nat) : option addr :=
  match nth_error vars a with Some (SStruct l) => nth_error l i | _ => None end.

(** Calling a promoted method: Go follows the embedding path.  A nil pointer on
    the way panics; at the end it is the receiver, which a method with a value
    receiver cannot have. *)
Fixpoint follow (T : nat) (a : addr) (p : list nat) : option (nat * option addr) :=
  match p with
  | [] => Some (T, Some a)
  | i :: p' =>
      match nth_error (fields T) i, field_var a i with
      | Some (Embedded _ U), Some b => follow U b p'
      | Some (EmbeddedPtr _ U), Some q =>
          match nth_error vars q with
          | Some (SPointer (Some b)) => follow U b p'
          | _ => match p' with [] => if by_pointer U then Some (U, None) else None | _ => None end
          end
      | _, _ => None
      end
  end.

(** unmarshal.go:645-649; [ro]: the struct was found in a field that is not
    exported, so that reflect refuses to call its methods. *)
Definition call_own (at_ : list nat) (ro : bool) (T : nat) (a : addr) : hook_run :=
  match method T with
  | None => hook_none
  | Some p =>
      if ro then hook_fail
      else match follow T a p with
           | Some (U, r) => {| hr_calls := [{| hc_path := at_ ++ p; hc_type := U; hc_recv := r |}]; hr_panic := false |}
           | None => hook_fail
           end
  end.

(** callStructAfterUnmarshal of the struct variable [a] of type [T] at the
    embedding path [at_]; [None]: the recursion is deeper than [fuel].  What a
    method does to the variables is left out. *)
Fixpoint call_after (fuel : nat) (at_ : list nat) (ro : bool) (T : nat) (a : addr) : option hook_run :=
  match fuel with
  | O => None
  | S n =>
      match (fix loop (i : nat) (fs : list sfield) : option hook_run :=
               match fs with
               | [] => Some hook_none
               | f :: fs' =>
                   let here :=
                     match f, field_var a i with
                     | Embedded e U, Some b => call_after n (at_ ++ [i]) (negb e) U b
                     | EmbeddedPtr e U, Some q =>
                         match nth_error vars q with
                         | Some (SPointer (Some b)) => call_after n (at_ ++ [i]) (negb e) U b
                         | _ => Some hook_none    (* Elem() of nil has no kind *)
                         end
                     | _, _ => Some hook_none
                     end in
                   match here with
                   | None => None
                   | Some r => if hr_panic r then Some r
                               else match loop (S i) fs' with
                                    | None => None
                                    | Some r' => Some (hook_then r r')
                                    end
                   end
               end) O (fields T) with
      | None => None
      | Some r => Some (hook_then r (call_own at_ ro T a))
      end
  end.
End Hooks.
