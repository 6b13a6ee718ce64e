(** Vocabulary for objects that contain each other: who contains whom, and
    what a document looks like after one of its objects has changed. *)
From Verif Require Import Base Json SpecJson Heap SpecHeap.

(** A place inside a value: member of a dict, element of an array. *)
Inductive step : Type := Key (k : bytes) | Idx (i : nat).
Definition path := list step.

(** From object [a], the path [p] leads to object [b]. *)
Inductive leads (h : heap) : addr -> path -> addr -> Prop :=
| leads_here a : leads h a [] a
| leads_member a nid kvs k b p c :
    nth_error h a = Some (CDict nid kvs) -> In (k, Some b) kvs -> leads h b p c -> leads h a (Key k :: p) c
| leads_element a rs i b p c :
    nth_error h a = Some (CArray rs) -> nth_error rs i = Some (Some b) -> leads h b p c -> leads h a (Idx i :: p) c.

(** [a] is, or contains at any depth, the object [b]. *)
Definition reaches (h : heap) (a b : addr) : Prop := exists p, leads h a p b.

(** The value at a place. *)
Inductive value_at : json -> path -> json -> Prop :=
| at_here j : value_at j [] j
| at_member nid kvs k x p v : In (k, x) kvs -> value_at x p v -> value_at (JDict nid kvs) (Key k :: p) v
| at_element l i x p v : nth_error l i = Some x -> value_at x p v -> value_at (JArray l) (Idx i :: p) v.

(** [replaced v P j j']: [j'] is [j] with [v] at all the places in [P], and
    otherwise the same. *)
Inductive replaced (v : json) : (path -> Prop) -> json -> json -> Prop :=
| rep_here (P : path -> Prop) j : P [] -> replaced v P j v
| rep_leaf (P : path -> Prop) j : ~ P [] -> ~ is_container j -> replaced v P j j
| rep_array (P : path -> Prop) l l' : ~ P [] -> length l = length l' ->
    (forall i x y, nth_error l i = Some x -> nth_error l' i = Some y -> replaced v (fun q => P (Idx i :: q)) x y) ->
    replaced v P (JArray l) (JArray l')
| rep_dict (P : path -> Prop) nid kvs kvs' : ~ P [] -> map fst kvs = map fst kvs' ->
    (forall i k x y, nth_error kvs i = Some (k, x) -> nth_error kvs' i = Some (k, y) ->
       replaced v (fun q => P (Key k :: q)) x y) ->
    replaced v P (JDict nid kvs) (JDict nid kvs').

(** The value [j] with [v] put at one place; [None] if there is no such place. *)
Fixpoint put_at (j : json) (p : path) (v : json) : option json :=
  match p with
  | [] => Some v
  | Idx i :: q =>
      match j with
      | JArray l => match nth_error l i with
                    | Some x => match put_at x q v with
                                | Some y => Some (JArray (firstn i l ++ y :: skipn (S i) l))
                                | None => None
                                end
                    | None => None
                    end
      | _ => None
      end
  | Key k :: q =>
      match j with
      | JDict nid kvs =>
          match lookup k kvs with
          | Some x => match put_at x q v with
                      | Some y => Some (JDict nid (map (fun kv => if bseq (fst kv) k then (k, y) else kv) kvs))
                      | None => None
                      end
          | None => None
          end
      | _ => None
      end
  end.

(** From [h] to [h'], the object [x] has become [v] and nothing else has
    changed: every object that stood for a value stands for the same value
    with [v] in all the places where it contains [x]. *)
Definition becomes (h : heap) (x : addr) (v : json) (h' : heap) : Prop :=
  holds h' x v /\
  forall a j, json_ok j -> holds h a j -> exists j', holds h' a j' /\ replaced v (fun p => leads h a p x) j j'.

(** [a] contains [x] at one place only. *)
Definition only_at (h : heap) (a : addr) (p : path) (x : addr) : Prop :=
  leads h a p x /\ forall q, leads h a q x -> q = p.

(** The objects that lie on the way [keys] from [a] (all but the last key) are
    contained in [a] at that place only, and not contained in [o]. *)
Definition along (h : heap) (a o : addr) (keys : list bytes) : Prop :=
  forall ks y, (exists k ks', keys = ks ++ k :: ks') -> leads h a (map Key ks) y ->
    only_at h a (map Key ks) y /\ ~ reaches h o y.
