(** Finite maps as functions, and what the operations of a dict mean on them.
    Does not mention the sorted list that implements dicts. *)
From Verif Require Import Base Json SpecJson.

Definition fmap : Type := bytes -> option json.

Definition fm_empty : fmap := fun _ => None.
Definition fm_set (m : fmap) (k : bytes) (v : json) : fmap :=
  fun k' => if bseq k' k then Some v else m k'.
Definition fm_remove (m : fmap) (k : bytes) : fmap :=
  fun k' => if bseq k' k then None else m k'.
(** Remove all keys the comparison takes for k. *)
Definition fm_remove_if (p : bytes -> bool) (m : fmap) : fmap :=
  fun k' => if p k' then None else m k'.
(** Union, the second map wins. *)
Definition fm_union (m m' : fmap) : fmap :=
  fun k => match m' k with Some v => Some v | None => m k end.

(** The members of a value as a finite map; empty for what is not a dict. *)
Definition fm_of (j : json) : fmap :=
  match j with JDict _ kvs => fun k => lookup k kvs | _ => fm_empty end.

(** The operations of a dict. *)
Inductive op : Type :=
| OpSet (k : bytes) (v : json)
| OpRemove (k : bytes)
| OpRemoveIgnoreCase (k : bytes)
| OpUpdate (other : json)
| OpUpdateDefault (other : json).

(** Their meaning; [ceq] is the case-insensitive comparison. *)
Definition op_meaning (ceq : bytes -> bytes -> bool) (o : op) (m : fmap) : fmap :=
  match o with
  | OpSet k v => fm_set m k v
  | OpRemove k => fm_remove m k
  | OpRemoveIgnoreCase k => fm_remove_if (ceq k) m
  | OpUpdate other => fm_union m (fm_of other)
  | OpUpdateDefault other => fm_union (fm_of other) m
  end.

(** A path lookup by the book: follow the keys through nested dicts. *)
Inductive at_path : json -> list bytes -> json -> Prop :=
| ap_here v : at_path v [] v
| ap_step nid kvs k ks v w : lookup k kvs = Some v -> at_path v ks w -> at_path (JDict nid kvs) (k :: ks) w.

(** One path is an extension of the other. *)
Definition comparable (p q : list bytes) : Prop := exists r, p = q ++ r \/ q = p ++ r.

(** Something that is neither null nor a dict sits on the way along [path]. *)
Definition blocked (d : json) (path : list bytes) : Prop :=
  exists q r w, path = q ++ r /\ r <> [] /\ at_path d q w /\ w <> JNull /\ (forall nid kvs, w <> JDict nid kvs).
