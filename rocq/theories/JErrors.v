(** Model of errors.go:41-74 (JSONError) and currency.go. *)
From Verif Require Import Base.

(** Go's str[a:b] with its bounds check *)
Definition slice (s : bytes) (a b : Z) : option bytes :=
  if (0 <=? a) && (a <=? b) && (b <=? Z.of_nat (length s))
  then Some (firstn (Z.to_nat (b - a)) (skipn (Z.to_nat a) s)) else None.

(** NewJSONError, errors.go:51-74: pos and substr; [None] is an index or
    slice bounds panic.  substr is built as make, copy, assignment, copy. *)
Definition copy_into (dst : bytes) (off : Z) (src : bytes) : option bytes :=
  if (0 <=? off) && (off <=? Z.of_nat (length dst))
  then let n := Nat.min (length dst - Z.to_nat off) (length src) in
       Some (firstn (Z.to_nat off) dst ++ firstn n src ++ skipn (Z.to_nat off + n) dst)
  else None.
Definition assign_at (dst : bytes) (i : Z) (c : byte) : option bytes :=
  if (0 <=? i) && (i <? Z.of_nat (length dst))
  then Some (firstn (Z.to_nat i) dst ++ [c] ++ skipn (S (Z.to_nat i)) dst) else None.

Definition NewJSONError (str : bytes) (pos : Z) : option (Z * bytes) :=
  if Nat.eqb (length str) 0 then Some (0, [])
  else
    let len := Z.of_nat (length str) in
    let pos := if pos <? 0 then 0 else if len - 1 <? pos then len - 1 else pos in
    let sublen := 10 in
    let start := pos - sublen in
    let end_ := pos + sublen in
    let start := if start <? 0 then 0 else start in
    let end_ := if len <? end_ then len else end_ in
    if end_ - start + 1 <? 0 then None else
    let substr := repeat x00 (Z.to_nat (end_ - start + 1)) in
    match slice str start pos with
    | None => None
    | Some pre =>
        match copy_into substr 0 pre with
        | None => None
        | Some substr =>
            match assign_at substr (pos - start) "^"%byte with
            | None => None
            | Some substr =>
                match slice str pos end_ with
                | None => None
                | Some post =>
                    match copy_into substr (pos - start + 1) post with
                    | None => None
                    | Some substr => Some (pos, substr)
                    end
                end
            end
        end
    end.

(** strings.Replace(s, c, "", -1) for a single byte c *)
Fixpoint delete_byte (c : byte) (s : bytes) : bytes :=
  match s with
  | [] => []
  | b :: s' => if beq b c then delete_byte c s' else b :: delete_byte c s'
  end.

(** strings.IndexByte *)
Fixpoint index_byte (s : bytes) (c : byte) : Z :=
  match s with
  | [] => -1
  | b :: s' => if beq b c then 0 else let i := index_byte s' c in if i <? 0 then -1 else i + 1
  end.

(** normalizeUSCurrency, currency.go:24-26 *)
Definition normalize_us (s : bytes) : bytes := delete_byte ","%byte s.

(** normalizeEUCurrency, currency.go:28-35 *)
Definition normalize_eu (s : bytes) : bytes :=
  let commaPos := index_byte s ","%byte in
  if 0 <=? commaPos
  then delete_byte "."%byte (firstn (Z.to_nat commaPos) s) ++ ["."%byte] ++ skipn (Z.to_nat commaPos + 1) s
  else delete_byte "."%byte s.

(** normalizeCurrencyString, currency.go:37-45.  The two regular expressions
    live in yunion.io/x/pkg/util/regutils, not in /repo: parameters. *)
Definition normalize_currency (matchUS matchEU : bytes -> bool) (s : bytes) : bytes :=
  if matchUS s then normalize_us s
  else if matchEU s then normalize_eu s
  else s.
