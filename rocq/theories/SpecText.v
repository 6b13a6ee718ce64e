(** Vocabulary for the properties of texts beyond RFC 8259: the library's own
    escapes, cut-off containers, empty value slots. *)
From Verif Require Import Base Strconv Json SpecJson SpecRFC.
Open Scope Z_scope.

(** ** Escapes inside a string closed by q *)

Inductive lib_char (q : byte) : bytes -> bytes -> Prop :=
| lc_raw c : c <> q -> c <> "\"%byte -> lib_char q [c] [c]
| lc_n : lib_char q ["\"; "n"]%byte [x0a]
| lc_r : lib_char q ["\"; "r"]%byte [x0d]
| lc_t : lib_char q ["\"; "t"]%byte [x09]
| lc_b : lib_char q ["\"; "b"]%byte [x08]
| lc_f : lib_char q ["\"; "f"]%byte [x0c]
| lc_other e : ~ In e ["n"; "r"; "t"; "b"; "f"; "u"; "x"]%byte -> lib_char q ["\"%byte; e] [e]
| lc_u h1 h2 h3 h4 a b c d u : hex_digit h1 a -> hex_digit h2 b -> hex_digit h3 c -> hex_digit h4 d ->
    utf8 (((a * 16 + b) * 16 + c) * 16 + d) u -> lib_char q ["\"%byte; "u"%byte; h1; h2; h3; h4] u
| lc_surrogate h1 h2 h3 h4 a b c d : hex_digit h1 a -> hex_digit h2 b -> hex_digit h3 c -> hex_digit h4 d ->
    55296 <= ((a * 16 + b) * 16 + c) * 16 + d <= 57343 ->
    lib_char q ["\"%byte; "u"%byte; h1; h2; h3; h4] [xef; xbf; xbd]
| lc_x h1 h2 a b c : hex_digit h1 a -> hex_digit h2 b -> bz c = a * 16 + b ->
    lib_char q ["\"%byte; "x"%byte; h1; h2] [c].

Inductive lib_chars (q : byte) : bytes -> bytes -> Prop :=
| lcs_nil : lib_chars q [] []
| lcs_cons t u ts us : lib_char q t u -> lib_chars q ts us -> lib_chars q (t ++ ts) (u ++ us).

(** ** Cut-off containers: what may stand behind the opening bracket *)

(** Complete elements, each followed by a comma, and nothing behind. *)
Inductive open_elements (K : bytes -> Prop) : bytes -> list json -> Prop :=
| oe_nil : open_elements K [] []
| oe_cons w1 t w2 v t' l : rfc_ws w1 -> rfc_value K t v -> rfc_ws w2 -> open_elements K t' l ->
    open_elements K (w1 ++ t ++ w2 ++ [","%byte] ++ t') (v :: l).

(** Complete members, each followed by a comma, and nothing behind. *)
Inductive open_members (K : bytes -> Prop) : bytes -> list (bytes * json) -> Prop :=
| om_nil : open_members K [] []
| om_cons t m t' ms : rfc_member K t m -> open_members K t' ms ->
    open_members K (t ++ [","%byte] ++ t') (m :: ms).

(** ** Empty value slots *)

(** The text has a place where a value is due (at its start, behind '[' or
    ',' or ':') and, after white space, there is a delimiter instead. *)
Inductive empty_slot : bytes -> Prop :=
| es_start w c r : rfc_ws w -> In c [","; ":"; "}"; "]"]%byte -> empty_slot (w ++ c :: r)
| es_elem a b w c r : In b ["["; ","]%byte -> rfc_ws w -> In c [","; ":"; "}"]%byte ->
    empty_slot (a ++ b :: w ++ c :: r)
| es_member a w c r : rfc_ws w -> In c [","; ":"; "}"; "]"]%byte ->
    empty_slot (a ++ ":"%byte :: w ++ c :: r).

(** The text could spell the reserved member name: literally, or with the help
    of an escape. *)
Definition may_spell_reserved (s : bytes) : Prop :=
  (exists a b, s = a ++ jnid_key ++ b) \/ In "\"%byte s.

(** The reserved member name. *)
Definition not_reserved (k : bytes) : Prop := k <> jnid_key.
