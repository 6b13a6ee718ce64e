(** Vocabulary for what a query string means: independent of the functions that
    read it. *)
From Verif Require Import Base Strconv Json SpecJson.

(** The hexadecimal digits. *)
Definition hex_digits : list (byte * Z) :=
  [("0"%byte, 0); ("1"%byte, 1); ("2"%byte, 2); ("3"%byte, 3); ("4"%byte, 4); ("5"%byte, 5); ("6"%byte, 6); ("7"%byte, 7);
   ("8"%byte, 8); ("9"%byte, 9); ("a"%byte, 10); ("b"%byte, 11); ("c"%byte, 12); ("d"%byte, 13); ("e"%byte, 14); ("f"%byte, 15);
   ("A"%byte, 10); ("B"%byte, 11); ("C"%byte, 12); ("D"%byte, 13); ("E"%byte, 14); ("F"%byte, 15)].
(** The bytes that are never escaped. *)
Definition unescaped_bytes : bytes := B "ABCDEFGHIJKLMNOPQRSTUVWXYZabcdefghijklmnopqrstuvwxyz0123456789-_.~".

(** How a byte is escaped: as itself, a blank as +, the others in hexadecimal. *)
Definition escaped (c : byte) : bytes :=
  if existsb (beq c) unescaped_bytes then [c]
  else if beq c " "%byte then ["+"%byte]
  else ["%"%byte; nth (Z.to_nat (bz c / 16)) (B "0123456789ABCDEF") x00; nth (Z.to_nat (bz c mod 16)) (B "0123456789ABCDEF") x00].

(** [url_text t u]: the escaped text [t] stands for [u]. *)
Inductive url_text : bytes -> bytes -> Prop :=
| url_nil : url_text [] []
| url_plus t u : url_text t u -> url_text ("+"%byte :: t) (" "%byte :: u)
| url_hex a b x y t u : In (a, x) hex_digits -> In (b, y) hex_digits -> url_text t u ->
    url_text ("%"%byte :: a :: b :: t) (zb (16 * x + y) :: u)
| url_char c t u : c <> "+"%byte -> c <> "%"%byte -> url_text t u -> url_text (c :: t) (c :: u).

(** One part of a query string: nothing, a key alone, or a key and a value. *)
Inductive part_means : bytes -> list (bytes * bytes) -> Prop :=
| part_empty : part_means [] []
| part_key kt k : kt <> [] -> ~ In "="%byte kt -> ~ In ";"%byte kt -> url_text kt k -> part_means kt [(k, [])]
| part_pair kt vt k v : ~ In "="%byte kt -> ~ In ";"%byte (kt ++ vt) -> url_text kt k -> url_text vt v ->
    part_means (kt ++ "="%byte :: vt) [(k, v)].
(** [query_means s m]: [s] consists of parts with & between them, that give the
    keys and values [m], in this order. *)
Inductive query_means : bytes -> list (bytes * bytes) -> Prop :=
| query_last p m : ~ In "&"%byte p -> part_means p m -> query_means p m
| query_more p m s m' : ~ In "&"%byte p -> part_means p m -> query_means s m' -> query_means (p ++ "&"%byte :: s) (m ++ m').

(** The values given for a key, in their order. *)
Inductive values_given (k : bytes) : list (bytes * bytes) -> list bytes -> Prop :=
| given_nil : values_given k [] []
| given_here v m vs : values_given k m vs -> values_given k ((k, v) :: m) (v :: vs)
| given_other k' v m vs : k' <> k -> values_given k m vs -> values_given k ((k', v) :: m) vs.

(** [path_of k p]: [p] are the parts of the key [k] between its dots. *)
Inductive path_of : bytes -> list bytes -> Prop :=
| path_one w : ~ In "."%byte w -> path_of w [w]
| path_more w k p : ~ In "."%byte w -> path_of k p -> path_of (w ++ "."%byte :: k) (w :: p).
(** A part that is an integer counts as the number, however it is spelled: this
    is the text of it. *)
Definition as_number (w : bytes) : bytes := match parse_int w with Some n => format_int n | None => w end.

(** What stands for the values of a key. *)
Definition given_value (vs : list bytes) : json :=
  match vs with [v] => JString v | _ => JArray (map JString vs) end.

(** Queries that make nested dicts: no part of a key but the first is the
    number 0, integers are spelled as FormatInt spells them, and a key that is
    given several times is not continued by a number. *)
Definition dict_query (m : list (bytes * bytes)) : Prop :=
  (forall k p w, In k (map fst m) -> path_of k p -> In w p -> as_number w = w) /\
  (forall k p, In k (map fst m) -> path_of k p -> ~ In (B "0") (tl p)) /\
  (forall k k' v v' vs p w r, values_given k m (v :: v' :: vs) -> In k' (map fst m) -> path_of k p -> path_of k' (p ++ w :: r) -> parse_int w = None).
(** The key with path [p] is not hidden by a key for a part of its path. *)
Definition not_hidden (m : list (bytes * bytes)) (p : list bytes) : Prop :=
  forall k q r, In k (map fst m) -> path_of k q -> p = q ++ r -> r = [].
