(** CheckRequiredFields and GetArrayOfPrefix on objects: both compare members
    with the JSONNull pointer.  [isnull] says which null objects are that
    pointer, as in [h_add_path] of Heap.v. *)
From Verif Require Import Base Strconv SortedMap Json Access Heap.

(** The loop of CheckRequiredFields, utils.go:102-110 *)
Fixpoint h_check_fields (isnull : addr -> bool) (h : heap) (kvs : smap ref) (fields : list bytes) : option jerror :=
  match fields with
  | [] => None
  | f :: fields' =>
      match sm_get kvs f with
      | None => Some ErrMissingInputField
      | Some r =>
          if match r with
             | Some x => match nth_error h x with Some CNull => isnull x | _ => false end
             | None => false
             end
          then Some ErrNilInputField else h_check_fields isnull h kvs fields'
      end
  end.

(** CheckRequiredFields, utils.go:97-112; [None] is the panic of GetMap
    (access.go:267) on a nil member. *)
Definition h_check_required (isnull : addr -> bool) (h : heap) (a : addr) (fields : list bytes) : option (option jerror) :=
  match nth_error h a with
  | None => None
  | Some (CDict _ kvs) =>
      if existsb (fun kv => is_nil (snd kv)) kvs then None else Some (h_check_fields isnull h kvs fields)
  | Some _ => Some (Some ErrUnsupported)
  end.

(** The outcome of GetArrayOfPrefix. *)
Inductive presult : Type := PObjects (l : list addr) | PPanics | PMore.

(** The loop of GetArrayOfPrefix, utils.go:139-146; Get panics on a nil member
    (access.go:228). *)
Fixpoint h_prefix_loop (isnull : addr -> bool) (fuel : nat) (h : heap) (kvs : smap ref) (prefix : bytes) (idx : nat) : presult :=
  match fuel with
  | O => PMore
  | S n =>
      match sm_get kvs (prefix ++ ["."%byte] ++ idx_key idx) with
      | None => PObjects []
      | Some None => PPanics
      | Some (Some x) =>
          if match nth_error h x with Some CNull => isnull x | _ => false end then PObjects []
          else match h_prefix_loop isnull n h kvs prefix (S idx) with
               | PObjects l => PObjects (x :: l)
               | r => r
               end
      end
  end.

(** GetArrayOfPrefix, utils.go:132-148; Get of anything but a dict fails *)
Definition h_array_of_prefix (isnull : addr -> bool) (fuel : nat) (h : heap) (a : addr) (prefix : bytes) : presult :=
  match nth_error h a with
  | Some (CDict _ kvs) => h_prefix_loop isnull fuel h kvs prefix 0
  | Some _ => PObjects []
  | None => PPanics
  end.
