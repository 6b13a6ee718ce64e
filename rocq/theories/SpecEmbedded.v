(** Vocabulary: structs with embedded struct pointers. *)
From Verif Require Import Base SortedMap Json Heap Gotypes Unmarshal SpecUnmarshal Embedded.

(** The pointer variables are not among those that the fields lead to: a struct
    holds its embedded pointers, but nothing that is decoded points to them. *)
Definition pointers_apart (m : mem) (a : addr) (ps : list parent) : Prop :=
  forall i f b, nth_error ps i = Some (Some (f, b)) -> (f < length m)%nat /\ ~ reaches m a f.

(** The pointer variable [f] belongs to the new struct [b]: all the fields that
    come through [f] are fields of [b]. *)
Definition pointer_of (ps : list parent) (f b : addr) : Prop :=
  (exists i, nth_error ps i = Some (Some (f, b))) /\ forall i b', nth_error ps i = Some (Some (f, b')) -> b' = b.

(** Some member of the dict is for a field that comes through [f]. *)
Definition asked_for (locate : list (finfo * gty) -> bytes -> list nat) (fs : list (finfo * gty)) (ps : list parent)
    (kvs : smap json) (f : addr) : Prop :=
  exists k j i b, In (k, j) kvs /\ selects locate fs k i /\ nth_error ps i = Some (Some (f, b)).
