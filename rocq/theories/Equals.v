(** Model of equals.go, Diff (dict.go:37-58), iszero.go. *)
From Verif Require Import Base Strconv SortedMap Json Access.

(** Go's == on float64 *)
Definition float_eq (f g : fl) : bool :=
  match f, g with
  | FFin n1 m1 e1, FFin n2 m2 e2 =>
      if (m1 =? 0) && (m2 =? 0) then true
      else Bool.eqb n1 n2 && (m1 =? m2) && (e1 =? e2)
  | FInf n1, FInf n2 => Bool.eqb n1 n2
  | _, _ => false
  end.

(** The Equals methods, equals.go:21-99 and jsonpointer.go:166-168.  For dicts
    the code loops over the common keys found by sortedmap.Split; here the
    loop runs over the members of the receiver and looks the key up in the
    argument, after the same tests on lengths and one-sided keys.  An
    unresolved reference compares as JSONNull. *)
Fixpoint equals (a b : json) {struct a} : bool :=
  match a with
  | JNull | JPtr _ => match b with JNull => true | _ => false end
  | JBool x => match b with JBool y => Bool.eqb x y | _ => false end
  | JInt x => match b with JInt y => x =? y | _ => false end
  | JFloat f _ => match b with JFloat g _ => float_eq f g | _ => false end
  | JString s => match b with JString t => bseq s t | _ => false end
  | JArray l =>
      match b with
      | JArray l2 =>
          Nat.eqb (length l) (length l2)
          && (fix go (l l2 : list json) : bool :=
                match l, l2 with
                | v :: l', w :: l2' => if negb (equals v w) then false else go l' l2'
                | _, _ => true
                end) l l2
      | _ => false
      end
  | JDict _ kvs =>
      match b with
      | JDict _ kvs2 =>
          if negb (Nat.eqb (length kvs) (length kvs2)) then false
          else
            let '(aNoB, _, _, bNoA) := sm_split kvs kvs2 in
            if (Nat.ltb 0 (length aNoB) || Nat.ltb 0 (length bNoA)) then false
            else (fix go (m : list (bytes * json)) : bool :=
                    match m with
                    | [] => true
                    | (k, v) :: m' =>
                        match sm_get kvs2 k with
                        | Some w => if negb (equals v w) then false else go m'
                        | None => go m'          (* not a common key *)
                        end
                    end) kvs
      | _ => false
      end
  end.

(** Diff, dict.go:37-58: aNoB, aDiffB, aAndB, bNoA *)
Definition Diff (a b : smap json) : smap json * smap json * smap json * smap json :=
  let '(aNoB, aData, bData, bNoA) := sm_split a b in
  let '(aDiffB, aAndB) :=
    fold_left (fun '(d, s) k =>
                 match sm_get aData k, sm_get bData k with
                 | Some aJson, Some bJson =>
                     if negb (equals aJson bJson) then (sm_add d k (JArray [aJson; bJson]), s)
                     else (d, sm_add s k aJson)
                 | _, _ => (d, s)                 (* not reached *)
                 end) (sm_keys aData) ([], []) in
  (aNoB, aDiffB, aAndB, bNoA).

(** IsZero, iszero.go:17-43, jsonpointer.go:79-84 *)
Definition IsZero (j : json) : bool :=
  match j with
  | JNull | JPtr _ => true
  | JBool b => negb b
  | JInt z => z =? 0
  | JFloat f _ => match f with FFin _ m _ => m =? 0 | _ => false end
  | JString s => Nat.eqb (length s) 0
  | JDict _ kvs => Nat.eqb (length kvs) 0
  | JArray l => Nat.eqb (length l) 0
  end.
