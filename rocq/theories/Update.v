(** Model of Update: update.go:17-20.  The source lives in a store of its own:
    Marshal is done with it before Unmarshal starts to write. *)
From Verif Require Import Base Strconv Json Heap Gotypes Marshal Access Unmarshal.

Section Update.
Context (env : nat -> list (finfo * gty)) (locate : list (finfo * gty) -> bytes -> list nat).
Context (match_us match_eu : bytes -> bool) (to_bool : bytes -> bool)
  (parse_time : bytes -> option bytes) (time_json : bytes -> option (option bytes)) (std_ok : bytes -> bool).

(** update.go:17-20: [dst] is a pointer to the variable [a] of type [t]; [None]
    when the fuel was not enough for Marshal. *)
Definition Update (pick : list Z -> Z) (fuel : nat) (m : mem) (t : gty) (a : addr) (st : store) (src : gval) : option utop :=
  match Marshal pick fuel st (Some src) with
  | Some j => Some (Unmarshal env locate match_us match_eu to_bool parse_time time_json std_ok fuel m t a j [])
  | None => None
  end.
End Update.
