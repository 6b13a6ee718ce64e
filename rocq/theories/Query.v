(** Model of querystring.go and stringsegment.go, and of the functions of
    net/url they call (not in /repo; documented behaviour of Go 1.18). *)
From Verif Require Import Base Strconv SortedMap Json Printer Access.

(** ** strings.Split / Join with a one-byte separator *)

(** strings.Split(s, sep), stringsegment.go:76, and the loop of url.ParseQuery *)
Fixpoint split_on (sep : byte) (s : bytes) : list bytes :=
  match s with
  | [] => [[]]
  | c :: s' => if beq c sep then [] :: split_on sep s'
               else match split_on sep s' with
                    | [] => [[c]]
                    | w :: ws => (c :: w) :: ws
                    end
  end.

(** strings.Join(l, sep), stringsegment.go:89, querystring.go:156, 169 *)
Fixpoint join_with (sep : byte) (l : list bytes) : bytes :=
  match l with
  | [] => []
  | [x] => x
  | x :: l' => x ++ sep :: join_with sep l'
  end.

(** ** net/url *)

(** shouldEscape(c, encodeQueryComponent) is false *)
Definition unreserved (c : byte) : bool :=
  is_digit c || ((65 <=? bz c) && (bz c <=? 90)) || ((97 <=? bz c) && (bz c <=? 122))
  || beq c "-"%byte || beq c "_"%byte || beq c "."%byte || beq c "~"%byte.

(** upperhex *)
Definition upperhex (n : Z) : byte := if n <? 10 then zb (48 + n) else zb (55 + n).

(** url.QueryEscape, querystring.go:116-124 *)
Definition escape_byte (c : byte) : bytes :=
  if unreserved c then [c]
  else if beq c " "%byte then ["+"%byte]
  else ["%"%byte; upperhex (bz c / 16); upperhex (bz c mod 16)].
Definition query_escape (s : bytes) : bytes := flat_map escape_byte s.

(** url.QueryUnescape; [None] is an error *)
Fixpoint query_unescape (s : bytes) : option bytes :=
  match s with
  | [] => Some []
  | c :: s' =>
      if beq c "%"%byte then
        match s' with
        | a :: b :: s'' =>
            if is_hexdigit a && is_hexdigit b
            then option_map (cons (zb (16 * hexdigit_val a + hexdigit_val b))) (query_unescape s'')
            else None
        | _ => None
        end
      else option_map (cons (if beq c "+"%byte then " "%byte else c)) (query_unescape s')
  end.

(** strings.Cut(s, "=") *)
Fixpoint cut_eq (s : bytes) : bytes * bytes :=
  match s with
  | [] => ([], [])
  | c :: s' => if beq c "="%byte then ([], s') else let '(k, v) := cut_eq s' in (c :: k, v)
  end.

(** One setting of url.ParseQuery; [None]: it sets the error. *)
Definition parse_setting (p : bytes) : option (list (bytes * bytes)) :=
  if existsb (fun c => beq c ";"%byte) p then None
  else match p with
       | [] => Some []
       | _ => let '(k, v) := cut_eq p in
              match query_unescape k, query_unescape v with
              | Some k', Some v' => Some [(k', v')]
              | _, _ => None
              end
       end.

(** url.ParseQuery, querystring.go:87: the (key, value) settings in order;
    [None] when it reports an error. *)
Fixpoint parse_settings (ps : list bytes) : option (list (bytes * bytes)) :=
  match ps with
  | [] => Some []
  | p :: ps' => match parse_setting p, parse_settings ps' with
                | Some a, Some b => Some (a ++ b)
                | _, _ => None
                end
  end.
Definition parse_query (s : bytes) : option (list (bytes * bytes)) := parse_settings (split_on "&"%byte s).

(** The url.Values map: m[k], and its keys in some order. *)
Definition values_of (m : list (bytes * bytes)) (k : bytes) : list bytes :=
  map snd (filter (fun kv => bseq k (fst kv)) m).
Fixpoint dedup (ks : list bytes) : list bytes :=
  match ks with
  | [] => []
  | k :: ks' => if in_strings k ks' then dedup ks' else k :: dedup ks'
  end.
Definition map_keys (m : list (bytes * bytes)) : list bytes := dedup (map fst m).

(** ** stringsegment.go *)

(** sTextNumber, stringsegment.go:27-31: [text] is only ever set when
    isNumber is false and [number] only when it is true. *)
Inductive seg : Type :=
| SNum (n : Z)
| SText (t : bytes).

Definition seg_number (s : seg) : Z := match s with SNum n => n | SText _ => 0 end.

(** compare, stringsegment.go:33-56 *)
Definition seg_compare (a b : seg) : Z :=
  match a, b with
  | SNum _, SText _ => -1
  | SText _, SNum _ => 1
  | SNum x, SNum y => if x <? y then -1 else if y <? x then 1 else 0
  | SText x, SText y => match bcmp x y with Lt => -1 | Gt => 1 | Eq => 0 end
  end.

(** String, stringsegment.go:58-64 *)
Definition seg_string (s : seg) : bytes :=
  match s with SNum n => format_int n | SText t => t end.

(** string2TextNumber, stringsegment.go:66-73 *)
Definition string2seg (s : bytes) : seg :=
  match parse_int s with Some n => SNum n | None => SText s end.

(** string2Segments, stringsegment.go:75-82 *)
Definition string2segments (s : bytes) : list seg := map string2seg (split_on "."%byte s).

(** segments2string, stringsegment.go:84-90 *)
Definition segments2string (l : list seg) : bytes := join_with "."%byte (map seg_string l).

(** The loop of Less, stringsegment.go:102-109, for lists of one length *)
Fixpoint less_loop (a b : list seg) : bool :=
  match a, b with
  | x :: a', y :: b' => let r := seg_compare x y in
                        if r <? 0 then true else if 0 <? r then false else less_loop a' b'
  | _, _ => false
  end.

(** Less, stringsegment.go:96-111 *)
Definition segs_less (a b : list seg) : bool :=
  if (length a <? length b)%nat then true
  else if (length b <? length a)%nat then false
  else less_loop a b.

(** sort.Sort(segmentKeys), querystring.go:96.  Go's sort is some sorting
    algorithm; insertion sort stands for it here, and the theorems on order
    independence hold for every sorted permutation. *)
Fixpoint insert_segs (x : list seg) (l : list (list seg)) : list (list seg) :=
  match l with
  | [] => [x]
  | y :: l' => if segs_less y x then y :: insert_segs x l' else x :: l
  end.
Definition sort_segs (l : list (list seg)) : list (list seg) := fold_right insert_segs [] l.

(** ** querystring.go *)

(** NewStringArray, jsonutils.go *)
Definition new_string_array (val : list bytes) : json := JArray (map JString val).

(** addQueryStringSeg, querystring.go:28-84.  First component: what the call
    returns.  Second component: the body object after the call, for a body
    that is not nil ([body] is changed in place in Go, also when the result is
    thrown away, lines 57 and 69). *)
Fixpoint add_seg (body : option json) (segs : list seg) (val : list bytes) {struct segs} : res json * json :=
  match segs with
  | [] =>
      (match val with
       | [v] => ROk (JString v)
       | _ :: _ :: _ => ROk (new_string_array val)
       | [] => RErr ErrNilInputField
       end, match body with Some b => b | None => JNull end)
  | s :: segs' =>
      let body1 := match body with
                   | Some b => b
                   | None => match s with
                             | SNum 0 => JArray []
                             | _ => JDict 0 []
                             end
                   end in
      match body1 with
      | JDict nid kvs =>
          let key := seg_string s in
          match sm_get kvs key with
          | None =>
              match fst (add_seg None segs' val) with
              | RErr e => (RErr e, body1)
              | ROk next => let b := JDict nid (sm_add kvs key next) in (ROk b, b)
              end
          | Some next =>
              let b := JDict nid (sm_add kvs key (snd (add_seg (Some next) segs' val))) in (ROk b, b)
          end
      | JArray l =>
          let index := seg_number s in
          let size := Z.of_nat (length l) in
          if index <? size then
            match array_get_at l index with
            | RErr e => (RErr e, body1)
            | ROk next =>
                let i := if index <? 0 then size + index else index in
                match replace_nth (Z.to_nat i) l (snd (add_seg (Some next) segs' val)) with
                | Some l' => (ROk (JArray l'), JArray l')
                | None => (RErr ErrOutOfIndexRange, body1)
                end
            end
          else if index =? size then
            match fst (add_seg None segs' val) with
            | RErr e => (RErr e, body1)
            | ROk next => (ROk (JArray (l ++ [next])), JArray (l ++ [next]))
            end
          else (RErr ErrOutOfIndexRange, body1)
      | _ => (RErr ErrTypeMismatch, body1)
      end
  end.

(** The loop of parseQueryString, querystring.go:97-102, over the sorted keys *)
Fixpoint add_all (m : list (bytes * bytes)) (dict : json) (keys : list (list seg)) : res json :=
  match keys with
  | [] => ROk dict
  | segs :: keys' =>
      let '(r, dict') := add_seg (Some dict) segs (values_of m (segments2string segs)) in
      match r with
      | RErr e => RErr e
      | ROk _ => add_all m dict' keys'
      end
  end.

(** parseQueryString and ParseQueryString, querystring.go:86-113 *)
Definition ParseQueryString (str : bytes) : res json :=
  match parse_query str with
  | None => RErr ErrQuerySyntax
  | Some m => add_all m (JDict 0 []) (sort_segs (map string2segments (map_keys m)))
  end.

(** simpleQueryString, querystring.go:115-125 *)
Definition simple_query_string (key val : bytes) : bytes :=
  match key, val with
  | _ :: _, _ :: _ => query_escape key ++ "="%byte :: query_escape val
  | [], _ :: _ => query_escape val
  | _ :: _, [] => query_escape key
  | [], [] => []
  end.

(** k = key + "." + k, querystring.go:151-153, 164-166 *)
Definition sub_key (key k : bytes) : bytes :=
  match key with [] => k | _ => key ++ "."%byte :: k end.

(** _queryString, querystring.go:127-170; of a reference, jsonpointer.go:103-105 *)
Fixpoint query_string (j : json) (key : bytes) {struct j} : bytes :=
  match j with
  | JNull => simple_query_string key []
  | JPtr _ => []
  | JBool b => simple_query_string key (String_ (JBool b))
  | JInt z => simple_query_string key (String_ (JInt z))
  | JFloat f bit => simple_query_string key (String_ (JFloat f bit))
  | JString s => simple_query_string key s
  | JArray l =>
      join_with "&"%byte
        ((fix go (i : Z) (l : list json) : list bytes :=
            match l with
            | [] => []
            | x :: l' => query_string x (sub_key key (format_int i)) :: go (i + 1) l'
            end) 0 l)
  | JDict _ kvs =>
      join_with "&"%byte
        ((fix go (kvs : list (bytes * json)) : list bytes :=
            match kvs with
            | [] => []
            | (k, x) :: kvs' => query_string x (sub_key key k) :: go kvs'
            end) kvs)
  end.

(** QueryString, querystring.go:172-178, jsonpointer.go:99-101: the dict has its own method, every
    other kind inherits the one of JSONValue, which calls JSONValue's
    _queryString. *)
Definition QueryString (j : json) : bytes :=
  match j with
  | JDict _ _ => query_string j []
  | JPtr _ => []
  | _ => query_string JNull []
  end.
