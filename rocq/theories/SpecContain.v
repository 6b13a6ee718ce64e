(** Vocabulary for what Unmarshal makes of arrays and dicts. *)
From Verif Require Import Base SortedMap Json Heap Gotypes Unmarshal SpecConvert.

Definition failed (r : utop) : Prop := forall m, r <> TopOk m.

(** The variable y in m' has the same value as x in m: for arrays and structs,
    part by part. *)
Inductive same_var (m m' : mem) : gty -> addr -> addr -> Prop :=
| sv_cell t x y c : match t with TArray _ _ | TStruct _ _ => False | _ => True end ->
    nth_error m x = Some c -> nth_error m' y = Some c -> same_var m m' t x y
| sv_array n t x y l l' : nth_error m x = Some (VArray l) -> nth_error m' y = Some (VArray l') -> Forall2 (same_var m m' t) l l' -> same_var m m' (TArray n t) x y
| sv_struct n fs x y l l' : nth_error m x = Some (VStruct l) -> nth_error m' y = Some (VStruct l') -> same_fields m m' fs l l' -> same_var m m' (TStruct n fs) x y
with same_fields (m m' : mem) : list (finfo * gty) -> list addr -> list addr -> Prop :=
| sf_nil : same_fields m m' [] [] []
| sf_cons f t fs x y l l' : same_var m m' t x y -> same_fields m m' fs l l' -> same_fields m m' ((f, t) :: fs) (x :: l) (y :: l').

(** m1 is m with the new variable b of type t, which has the zero value. *)
Definition new_zero (m : mem) (t : gty) (b : addr) (m1 : mem) : Prop :=
  extends m m1 /\ (length m <= b)%nat /\ zero_var m1 t b.

Section InTurn.
(** What it means to unmarshal a value into a variable of the element type. *)
Context (into : mem -> addr -> json -> utop).

(** The values js are unmarshalled into the variables l, one after the other,
    until one fails. *)
Inductive in_turn : mem -> list addr -> list json -> utop -> Prop :=
| it_done m : in_turn m [] [] (TopOk m)
| it_next m b l j js m1 r : into m b j = TopOk m1 -> in_turn m1 l js r -> in_turn m (b :: l) (j :: js) r
| it_stop m b l j js r : into m b j = r -> failed r -> in_turn m (b :: l) (j :: js) r.

(** The members kvs are put into the map whose contents is the variable d: each
    is unmarshalled into a new variable, which touches no other, and a copy of
    that becomes the element. *)
Inductive members_in_turn (t : gty) (d : addr) : mem -> list (bytes * json) -> utop -> Prop :=
| mt_done m : members_in_turn t d m [] (TopOk m)
| mt_next m k j kvs tmp m1 m2 old b m3 r :
    new_zero m t tmp m1 -> into m1 tmp j = TopOk m2 -> (forall x, (x < length m)%nat -> nth_error m2 x = nth_error m x) ->
    nth_error m d = Some (VMapData old) -> (length m2 <= b)%nat -> same_var m2 m3 t tmp b ->
    nth_error m3 d = Some (VMapData (sm_add old k b)) -> (forall x, (x < length m2)%nat -> x <> d -> nth_error m3 x = nth_error m2 x) ->
    members_in_turn t d m3 kvs r -> members_in_turn t d m ((k, j) :: kvs) r
| mt_stop m k j kvs tmp m1 r : new_zero m t tmp m1 -> into m1 tmp j = r -> failed r -> members_in_turn t d m ((k, j) :: kvs) r.
End InTurn.

(** ** Targets that do not fit *)

Definition not_for_arrays (t : gty) : Prop :=
  match t with
  | TBool | TInt _ | TFloat _ | TMap _ | TMapOther _ | TStruct _ _ | TOther => True
  | TJsonVal k => k <> KArray
  | _ => False
  end.
Definition not_for_dicts (t : gty) : Prop :=
  match t with
  | TBool | TInt _ | TFloat _ | TSlice _ | TArray _ _ | TOther => True
  | TJsonVal k => k <> KDict
  | _ => False
  end.
