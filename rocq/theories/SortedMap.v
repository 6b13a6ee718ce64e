(** Model of yunion.io/x/pkg/sortedmap, the container behind JSONDict
    (jsonutils.go:76).  Its source is not in /repo; modelled by its contract:
    a list of (key, value) pairs sorted strictly by key (bytewise).  Used from
    access.go, clone.go, dict.go, equals.go, interface.go, jsonutils.go,
    querystring.go, unmarshal.go, write.go.  The in-place array sharing of the
    Go slice is not modelled here. *)
From Verif Require Import Base.

Definition smap (V : Type) : Type := list (bytes * V).

Section SortedMap.
Context {V : Type}.
Implicit Types (m a b : smap V) (k : bytes) (v : V).

(** sortedmap.NewSortedMap / NewSortedMapWithCapa (jsonutils.go:426, access.go:33) *)
Definition sm_empty : smap V := [].

(** SSortedMap.Get (access.go:114,222) *)
Fixpoint sm_get m k : option V :=
  match m with
  | [] => None
  | (k', v) :: m' => if bseq k k' then Some v else sm_get m' k
  end.

(** sortedmap.Add (access.go:77, jsonutils.go:481): insert or replace. *)
Fixpoint sm_add m k v : smap V :=
  match m with
  | [] => [(k, v)]
  | (k', v') :: m' =>
      match bcmp k k' with
      | Lt => (k, v) :: m
      | Eq => (k, v) :: m'
      | Gt => (k', v') :: sm_add m' k v
      end
  end.

(** sortedmap.Delete (access.go:103) *)
Fixpoint sm_delete m k : smap V * bool :=
  match m with
  | [] => ([], false)
  | (k', v') :: m' =>
      if bseq k k' then (m', true)
      else let '(r, ok) := sm_delete m' k in ((k', v') :: r, ok)
  end.

(** SSortedMap.Keys (jsonutils.go:568, dict.go:45, equals.go:33) *)
Definition sm_keys m : list bytes := map fst m.

(** Case-insensitive access (access.go:101,224); [ceq] is the package's
    case-insensitive comparison of keys.  The first match in key order. *)
Fixpoint sm_get_ic (ceq : bytes -> bytes -> bool) m k : option V :=
  match m with
  | [] => None
  | (k', v) :: m' => if ceq k k' then Some v else sm_get_ic ceq m' k
  end.

Fixpoint sm_delete_ic (ceq : bytes -> bytes -> bool) m k : smap V * bool :=
  match m with
  | [] => ([], false)
  | (k', v') :: m' =>
      if ceq k k' then (m', true)
      else let '(r, ok) := sm_delete_ic ceq m' k in ((k', v') :: r, ok)
  end.

(** sortedmap.Merge(a, b) (dict.go:26,34): union, b wins. *)
Definition sm_merge a b : smap V := fold_left (fun m '(k, v) => sm_add m k v) b a.

(** sortedmap.Split(a, b) (dict.go:44, equals.go:29): the entries of a whose
    key is not in b; those of a whose key is in b; those of b whose key is in
    a; those of b whose key is not in a. *)
Definition sm_mem m k : bool := match sm_get m k with Some _ => true | None => false end.
Definition sm_split a b : smap V * smap V * smap V * smap V :=
  (filter (fun kv => negb (sm_mem b (fst kv))) a,
   filter (fun kv => sm_mem b (fst kv)) a,
   filter (fun kv => sm_mem a (fst kv)) b,
   filter (fun kv => negb (sm_mem a (fst kv))) b).

(** The representation invariant. *)
Fixpoint keys_sorted (ks : list bytes) : Prop :=
  match ks with
  | [] => True
  | k :: ks' => (match ks' with [] => True | k' :: _ => blt k k' end) /\ keys_sorted ks'
  end.

Definition sm_ok m : Prop := keys_sorted (sm_keys m).

End SortedMap.
