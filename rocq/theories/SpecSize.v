(** How large a value is (C71). *)
From Verif Require Import Base Json.

(** Its values: itself and everything in it. *)
Fixpoint nodes (v : json) : nat :=
  match v with
  | JArray l => S (list_sum (map nodes l))
  | JDict _ kvs => S (list_sum (map (fun kv => nodes (snd kv)) kvs))
  | _ => 1
  end.

(** The bytes of its strings and member names. *)
Fixpoint text_bytes (v : json) : nat :=
  match v with
  | JString s => length s
  | JArray l => list_sum (map text_bytes l)
  | JDict _ kvs => list_sum (map (fun kv => (length (fst kv) + text_bytes (snd kv))%nat) kvs)
  | _ => 0
  end.

(** How deep arrays and dicts are nested in it. *)
Fixpoint depth (v : json) : nat :=
  match v with
  | JArray l => S (list_max (map depth l))
  | JDict _ kvs => S (list_max (map (fun kv => depth (snd kv)) kvs))
  | _ => 0
  end.

Definition opening (c : byte) : bool := beq c "["%byte || beq c "{"%byte.
Definition openings (s : bytes) : nat := length (filter opening s).
