(** Vocabulary: variables of two memories that have the same contents. *)
From Verif Require Import Base SortedMap Json Heap Gotypes Unmarshal SpecUnmarshal.

(** The variables of two memories, one to one. *)
Definition correspondence := addr -> addr -> Prop.

(** The same contents, where one cell has a variable of the first memory and
    the other the corresponding one of the second. *)
Definition like (R : correspondence) (c c' : vcell) : Prop :=
  match c, c' with
  | VSlice (Some (l, k)), VSlice (Some (l', k')) => Forall2 R l l' /\ k = k'
  | VArray l, VArray l' => Forall2 R l l'
  | VStruct l, VStruct l' => Forall2 R l l'
  | VMap (Some d), VMap (Some d') => R d d'
  | VMapData kvs, VMapData kvs' => Forall2 (fun x y => fst x = fst y /\ R (snd x) (snd y)) kvs kvs'
  | VPtr (Some b), VPtr (Some b') => R b b'
  | VIface (Some (DynPtr b t)), VIface (Some (DynPtr b' t')) => R b b' /\ t = t'
  | _, _ => c = c'
  end.

Definition corresponds (R : correspondence) (m m' : mem) : Prop :=
  (forall a b a' b', R a a' -> R b b' -> (a = b <-> a' = b')) /\
  (forall a a', R a a' -> exists c c', nth_error m a = Some c /\ nth_error m' a' = Some c' /\ like R c c').

(** With new variables, perhaps *)
Definition extended (R R' : correspondence) : Prop := forall a a', R a a' -> R' a a'.

(** The same outcome of two calls *)
Definition same_outcome (R : correspondence) (r r' : utop) : Prop :=
  match r, r' with
  | TopOk m, TopOk m' => exists R', extended R R' /\ corresponds R' m m'
  | TopErr m e, TopErr m' e' => e = e' /\ exists R', extended R R' /\ corresponds R' m m'
  | TopGet e, TopGet e' => e = e'
  | TopPanic, TopPanic | TopFuel, TopFuel => True
  | _, _ => False
  end.

(** Every variable that [a] leads to exists. *)
Definition no_dangling (m : mem) (a : addr) : Prop := forall x, reaches m a x -> (x < length m)%nat.
(** The same for all variables *)
Definition all_exist (m : mem) : Prop := forall x c y, nth_error m x = Some c -> In y (mentions c) -> (y < length m)%nat.
(** The memory an Unmarshal leaves, where it returns *)
Definition leaves (r : utop) (m : mem) : Prop := r = TopOk m \/ exists e, r = TopErr m e.
(** Each variable that [a] leads to, with itself *)
Definition itself (m : mem) (a : addr) : correspondence := fun x y => x = y /\ reaches m a x.
