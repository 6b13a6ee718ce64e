(** Vocabulary: what a query string says. *)
From Verif Require Import Base Strconv Json Printer Query.

(** The leaves of a value from left to right, each with the names and element
    numbers that lead to it and its text; a reference and an empty container
    have none. *)
Definition under (k : bytes) (r : list (list bytes * option bytes)) : list (list bytes * option bytes) :=
  map (fun x => (k :: fst x, snd x)) r.
Fixpoint rows (j : json) : list (list bytes * option bytes) :=
  match j with
  | JNull => [([], Some [])]
  | JString s => [([], Some s)]
  | JPtr _ | JArray [] | JDict _ [] => [([], None)]
  | JArray l => (fix go (i : Z) (l : list json) := match l with [] => [] | x :: l' => under (format_int i) (rows x) ++ go (i + 1) l' end) 0 l
  | JDict _ kvs => (fix go (kvs : list (bytes * json)) := match kvs with [] => [] | (k, x) :: kvs' => under k (rows x) ++ go kvs' end) kvs
  | _ => [([], Some (String_ j))]
  end.

(** The names with dots between them, without empty ones at the front *)
Fixpoint dotted (p : list bytes) : bytes :=
  match p with
  | [] => []
  | [] :: p' => dotted p'
  | _ => join_with "."%byte p
  end.

(** name=text, or the one that is not empty *)
Definition row_text (r : list bytes * option bytes) : bytes :=
  match snd r with
  | None => []
  | Some v =>
      query_escape (dotted (fst r)) ++
      (if Nat.eqb (length (dotted (fst r))) 0 || Nat.eqb (length v) 0 then [] else B"=") ++
      query_escape v
  end.
