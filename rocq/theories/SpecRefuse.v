(** The texts that Parse refuses (C55): where reading stops, and with what
    error or panic.  Parser.v is used for the names of these only. *)
From Verif Require Import Base Json SpecJson SpecRFC SpecScalar SpecText SpecLenient Parser.
Open Scope Z_scope.

Inductive trouble : Set :=
| Tells (e : perr)          (* returns an error *)
| Crashes (p : ppanic).     (* panics *)

Definition hex (c : byte) : Prop := exists v, hex_digit c v.
Definition blank (c : byte) : Prop := In c [" "; x09; x0d; x0a]%byte.

(** In all relations, [t] is what has been read when the trouble is noticed, and
    [rest] is the text from there on. *)

(** Behind an opening quote: a wrong escape, or one for which the input is too
    short.  An escape with hexadecimal digits must have something behind it. *)
Inductive bad_string (q : byte) : bytes -> bytes -> perr -> Prop :=
| bs_escape : bad_string q [] ["\"%byte] EIncompleteEscape
| bs_u_short rest : (length rest <= 4)%nat -> bad_string q ["\"; "u"]%byte rest EIncompleteUnicode
| bs_u_digits a b c d e rest : ~ (hex a /\ hex b /\ hex c /\ hex d) -> bad_string q ["\"; "u"]%byte (a :: b :: c :: d :: e :: rest) EBadUnicode
| bs_x_short rest : (length rest <= 2)%nat -> bad_string q ["\"; "x"]%byte rest EIncompleteHex
| bs_x_digits a b e rest : ~ (hex a /\ hex b) -> bad_string q ["\"; "x"]%byte (a :: b :: e :: rest) EBadHex
| bs_more t u ts rest e : lib_char q t u -> bad_string q ts rest e -> bad_string q (t ++ ts) rest e.

(** Behind a name that is a word comes a delimiter. *)
Definition name_ends (kt rest : bytes) : Prop :=
  (forall c r, kt = c :: r -> ~ quote c) -> forall d r, rest = d :: r -> delimiter d.

Definition reserved : bytes := B "___jnid_".

(** [bad_value ids t rest o]: where a value is due, and the node ids before it
    are [ids]. *)
Inductive bad_value : list Z -> bytes -> bytes -> trouble -> Prop :=
(** nothing there *)
| bv_nothing ids c rest : In c [":"; ","; "}"; "]"]%byte -> bad_value ids [] (c :: rest) (Crashes PIndexOutOfRange)
(** <...> without a number *)
| bv_reference ids body rest : bare ("<"%byte :: body ++ [">"%byte]) -> (forall n, ~ int64_text body n) -> (forall d r, rest = d :: r -> delimiter d) ->
    bad_value ids ("<"%byte :: body ++ [">"%byte]) rest (Tells EBadNodeId)
| bv_string ids q t rest e : quote q -> bad_string q t rest e -> bad_value ids (q :: t) rest (Tells e)
| bv_array ids t rest o : bad_array ids t rest o -> bad_value ids ("["%byte :: t) rest o
| bv_dict ids t rest o : bad_dict ids t rest o -> bad_value ids ("{"%byte :: t) rest o
(** a node id that was there before *)
| bv_twice ids complete t ms nid kvs ids' rest : ldict complete t ms ids' -> members_value ms nid kvs -> 0 < nid -> NoDup (ids ++ ids') -> In nid (ids ++ ids') ->
    (complete = false -> rest = []) -> bad_value ids ("{"%byte :: t) rest (Crashes PDuplicateNode)
(** Behind the opening bracket of an array *)
with bad_array : list Z -> bytes -> bytes -> trouble -> Prop :=
| ba_blank ids w : rfc_ws w -> w <> [] -> bad_array ids w [] (Tells ETruncated)
| ba_value ids w t rest o : rfc_ws w -> bad_value ids t rest o -> (forall r, t ++ rest <> "]"%byte :: r) -> bad_array ids (w ++ t) rest o
| ba_end ids complete w1 t w2 v ids' : rfc_ws w1 -> lval complete t v ids' -> rfc_ws w2 -> NoDup (ids ++ ids') -> (complete = false -> w2 = []) ->
    bad_array ids (w1 ++ t ++ w2) [] (Tells ETruncated)
| ba_char ids w1 t w2 v ids' c rest : rfc_ws w1 -> lval true t v ids' -> rfc_ws w2 -> NoDup (ids ++ ids') -> may_follow true t (w2 ++ c :: rest) ->
    ~ blank c -> c <> ","%byte -> c <> "]"%byte -> bad_array ids (w1 ++ t ++ w2) (c :: rest) (Tells EUnexpectedChar)
| ba_more ids w1 t w2 v ids' t' rest o : rfc_ws w1 -> lval true t v ids' -> rfc_ws w2 -> NoDup (ids ++ ids') -> bad_array (ids ++ ids') t' rest o ->
    bad_array ids (w1 ++ t ++ w2 ++ ","%byte :: t') rest o
(** Behind the opening bracket of a dict *)
with bad_dict : list Z -> bytes -> bytes -> trouble -> Prop :=
| bd_blank ids w : rfc_ws w -> w <> [] -> bad_dict ids w [] (Tells ETruncated)
| bd_name ids w q t rest e : rfc_ws w -> quote q -> bad_string q t rest e -> bad_dict ids (w ++ q :: t) rest (Tells e)
| bd_name_cut ids w q body k : rfc_ws w -> quote q -> unfinished q body k -> bad_dict ids (w ++ q :: body) [] (Tells ETruncated)
| bd_name_end ids w1 kt k w2 : rfc_ws w1 -> name kt k -> kt <> [] -> rfc_ws w2 -> bad_dict ids (w1 ++ kt ++ w2) [] (Tells ETruncated)
| bd_colon ids w1 kt k w2 c rest : rfc_ws w1 -> name kt k -> rfc_ws w2 -> name_ends kt (w2 ++ c :: rest) -> ~ blank c -> c <> ":"%byte -> (kt = [] -> w2 = [] /\ c <> "}"%byte) ->
    bad_dict ids (w1 ++ kt ++ w2) (c :: rest) (Tells EColonNotFound)
| bd_colon_end ids w1 kt k w2 w3 : rfc_ws w1 -> name kt k -> rfc_ws w2 -> rfc_ws w3 -> bad_dict ids (w1 ++ kt ++ w2 ++ ":"%byte :: w3) [] (Tells ETruncated)
| bd_value ids w1 kt k w2 w3 t rest o : rfc_ws w1 -> name kt k -> rfc_ws w2 -> rfc_ws w3 -> bad_value ids t rest o ->
    bad_dict ids (w1 ++ kt ++ w2 ++ ":"%byte :: w3 ++ t) rest o
(** the reserved name with something that is no integer *)
| bd_reserved ids w1 kt w2 w3 complete t v ids' rest : rfc_ws w1 -> name kt reserved -> rfc_ws w2 -> rfc_ws w3 -> lval complete t v ids' -> NoDup (ids ++ ids') ->
    may_follow complete t rest -> (forall z, v <> JInt z) -> bad_dict ids (w1 ++ kt ++ w2 ++ ":"%byte :: w3 ++ t) rest (Crashes PTypeAssertion)
| bd_end ids w1 kt k w2 w3 complete t v ids' w4 : rfc_ws w1 -> name kt k -> rfc_ws w2 -> rfc_ws w3 -> lval complete t v ids' -> NoDup (ids ++ ids') -> rfc_ws w4 ->
    (complete = false -> w4 = []) -> (k = reserved -> exists z, v = JInt z) -> bad_dict ids (w1 ++ kt ++ w2 ++ ":"%byte :: w3 ++ t ++ w4) [] (Tells ETruncated)
| bd_char ids w1 kt k w2 w3 t v ids' w4 c rest : rfc_ws w1 -> name kt k -> rfc_ws w2 -> rfc_ws w3 -> lval true t v ids' -> NoDup (ids ++ ids') -> rfc_ws w4 ->
    may_follow true t (w4 ++ c :: rest) -> (k = reserved -> exists z, v = JInt z) -> ~ blank c -> c <> ","%byte -> c <> "}"%byte ->
    bad_dict ids (w1 ++ kt ++ w2 ++ ":"%byte :: w3 ++ t ++ w4) (c :: rest) (Tells EUnexpectedChar)
| bd_more ids w1 kt k w2 w3 t v ids' w4 t' rest o : rfc_ws w1 -> name kt k -> rfc_ws w2 -> rfc_ws w3 -> lval true t v ids' -> NoDup (ids ++ ids') -> rfc_ws w4 ->
    (k = reserved -> exists z, v = JInt z) -> bad_dict (ids ++ ids') t' rest o -> bad_dict ids (w1 ++ kt ++ w2 ++ ":"%byte :: w3 ++ t ++ w4 ++ ","%byte :: t') rest o.

(** The document: only white space, or a value with trouble behind white space.
    [at_] is how much was read. *)
Inductive refused_text : bytes -> trouble -> nat -> Prop :=
| rt_empty w : rfc_ws w -> refused_text w (Tells EEmptyString) (length w)
| rt_value w t rest o : rfc_ws w -> bad_value [] t rest o -> refused_text (w ++ t ++ rest) o (length w + length t).
