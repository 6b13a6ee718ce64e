(** What a value with linked references stands for: the tree one gets by
    putting, for each reference, the dict it is linked to, again and again.
    The tree may be infinite, so it is given up to a number of references on a
    path. *)
From Verif Require Import Base Json SpecJson.

Section Unfold.
Context (links : Z -> option json).

Fixpoint unfold_refs (depth : nat) : json -> json :=
  fix go (j : json) : json :=
    match j with
    | JArray l => JArray (map go l)
    | JDict nid kvs => JDict nid (map (fun kv => (fst kv, go (snd kv))) kvs)
    | JPtr p => match links p, depth with
                | Some d, S n => unfold_refs n d
                | _, _ => JPtr p
                end
    | _ => j
    end.

(** Nothing is left to follow: the tree is finite and this is all of it. *)
Definition unfolded (j : json) : Prop := forall p d, links p = Some d -> ~ subvalue (JPtr p) j.
End Unfold.

(** References are linked to dicts only. *)
Definition dicts_only (links : Z -> option json) : Prop := forall p d, links p = Some d -> exists nid kvs, d = JDict nid kvs.

(** Levels of a value *)
Fixpoint height (j : json) : nat :=
  match j with
  | JArray l => S (fold_right (fun x n => Nat.max (height x) n) 0%nat l)
  | JDict _ kvs => S (fold_right (fun kv n => Nat.max (height (snd kv)) n) 0%nat kvs)
  | _ => 0%nat
  end.

(** The dict with node id [p] inside [j], the first in reading order: what the
    reference <p> of the value [j] is linked to. *)
Fixpoint find_dict (p : Z) (j : json) : option json :=
  let first := fix first (l : list json) : option json :=
    match l with [] => None | x :: l' => match find_dict p x with Some d => Some d | None => first l' end end in
  match j with
  | JArray l => first l
  | JDict nid kvs => if nid =? p then Some j
                     else (fix members (l : list (bytes * json)) : option json :=
                             match l with [] => None | (_, x) :: l' => match find_dict p x with Some d => Some d | None => members l' end end) kvs
  | _ => None
  end.
Definition links_of (j : json) (p : Z) : option json := find_dict p j.
