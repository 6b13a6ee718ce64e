(** Model of marshalMap for maps with keys of any type: marshal.go:63-101. *)
From Coq Require Import Sorting.Sorted Sorting.Permutation.
From Verif Require Import Base Strconv Json Gotypes Marshal.

(** A key of a map: a string; an integer or boolean of the type with this name;
    or any other key (among them those with a String method of their own), of
    which only its two texts matter. *)
Inductive mapkey : Type :=
| KString (s : bytes)
| KInt (name : bytes) (z : Z)
| KBool (name : bytes) (b : bool)
| KOther (raw text : bytes).

(** reflect's Value.String(), by which tMapKeys sorts, marshal.go:67: of
    anything but strings it gives the type only. *)
Definition key_raw (k : mapkey) : bytes :=
  match k with
  | KString s => s
  | KInt name _ | KBool name _ => B"<" ++ name ++ B" Value>"
  | KOther raw _ => raw
  end.

(** fmt.Sprintf("%s", key), marshal.go:88: the verb is a bad one for numbers and
    booleans, which fmt says in the text. *)
Definition key_text (k : mapkey) : bytes :=
  match k with
  | KString s => s
  | KInt name z => B"%!s(" ++ name ++ B"=" ++ format_int z ++ B")"
  | KBool name b => B"%!s(" ++ name ++ B"=" ++ (if b then B"true" else B"false") ++ B")"
  | KOther _ text => text
  end.

(** val.MapKeys() gives the keys in any order, and sort.Sort is not stable:
    marshal.go:77-82.  [order] is one order in which a map with the entries [es]
    may be visited. *)
Definition visits (es order : list (mapkey * gval)) : Prop :=
  Permutation es order /\ StronglySorted (fun x y => bcmp (key_raw (fst x)) (key_raw (fst y)) <> Gt) order.

(** The loop at marshal.go:84-90 over the keys in that order is the one of
    Marshal.v. *)
Definition keyed (order : list (mapkey * gval)) : gval :=
  GMap (Some (map (fun kv => (key_text (fst kv), snd kv)) order)).

(** Marshal (MarshalAll) of a map with these entries may return [j]. *)
Definition marshals_map (omit : bool) (st : store) (es : list (mapkey * gval)) (j : json) : Prop :=
  exists order pick n, visits es order /\ (forall l, l <> [] -> In (pick l) l) /\ marshal_with omit pick n st (Some (keyed order)) = Some j.
