(** Vocabulary: maps visited in another order. *)
From Coq Require Import Sorting.Permutation.
From Verif Require Import Base Json Gotypes Heap.

(** The same value, but the maps in it, whose members have different names, may
    be visited in another order. *)
Inductive reordered : gval -> gval -> Prop :=
| RO_same v : reordered v v
| RO_slice l l' : Forall2 reordered l l' -> reordered (GSlice (Some l)) (GSlice (Some l'))
| RO_array l l' : Forall2 reordered l l' -> reordered (GArray l) (GArray l')
| RO_map m m' m'' : NoDup (map fst m) -> Forall2 (fun x y => fst x = fst y /\ reordered (snd x) (snd y)) m m' -> Permutation m' m'' ->
    reordered (GMap (Some m)) (GMap (Some m''))
| RO_struct fs fs' : Forall2 (fun x y => fst x = fst y /\ reordered (snd x) (snd y)) fs fs' -> reordered (GStruct fs) (GStruct fs')
| RO_iface x y : reordered x y -> reordered (GIface (Some x)) (GIface (Some y)).
