(** Vocabulary: Go values with the same contents, in different places. *)
From Verif Require Import Base Strconv Json Heap Gotypes SpecMarshal.

(** Two values with the same contents, where the pointers in them lead to
    variables that [R] puts side by side. *)
Inductive alike (R : addr -> addr -> Prop) : gval -> gval -> Prop :=
| al_flat v : (forall a, ~ In a (pointers v)) -> alike R v v
| al_slice l l' : Forall2 (alike R) l l' -> alike R (GSlice (Some l)) (GSlice (Some l'))
| al_array l l' : Forall2 (alike R) l l' -> alike R (GArray l) (GArray l')
| al_map m m' : Forall2 (fun x y => fst x = fst y /\ alike R (snd x) (snd y)) m m' -> alike R (GMap (Some m)) (GMap (Some m'))
| al_struct fs fs' : Forall2 (fun x y => fst x = fst y /\ alike R (snd x) (snd y)) fs fs' -> alike R (GStruct fs) (GStruct fs')
| al_ptr a b : R a b -> alike R (GPtr (Some a)) (GPtr (Some b))
| al_iface v v' : alike R v v' -> alike R (GIface (Some v)) (GIface (Some v')).

(** Variables side by side have the same contents. *)
Definition same_contents (R : addr -> addr -> Prop) (st st' : store) : Prop :=
  forall a b, R a b -> exists v v', nth_error st a = Some v /\ nth_error st' b = Some v' /\ alike R v v'.

(** One variable beside one variable: what is shared here is shared there. *)
Definition one_to_one (R : addr -> addr -> Prop) : Prop :=
  (forall a b b', R a b -> R a b' -> b = b') /\ (forall a a' b, R a b -> R a' b -> a = a').

(** The variables that a value leads to. *)
Inductive leads_to (st : store) (v : gval) : addr -> Prop :=
| lt_here a : In a (pointers v) -> leads_to st v a
| lt_more a x b : leads_to st v a -> nth_error st a = Some x -> In b (pointers x) -> leads_to st v b.
