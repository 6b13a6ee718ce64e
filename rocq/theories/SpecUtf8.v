(** Well-formed UTF-8 (RFC 3629), and values all of whose strings are; for
    C70.  Does not mention the parser or the printers. *)
From Verif Require Import Base Strconv Json SpecJson SpecRFC.
Open Scope Z_scope.

(** One character; [utf8] of SpecRFC has the code points below U+10000. *)
Inductive utf8_char : bytes -> Prop :=
| uc_bmp cp u : utf8 cp u -> utf8_char u
| uc_beyond cp b1 b2 b3 b4 h i j k : cp = ((h * 64 + i) * 64 + j) * 64 + k ->
    0 <= h < 8 -> 0 <= i < 64 -> 0 <= j < 64 -> 0 <= k < 64 -> 65536 <= cp <= 1114111 ->
    bz b1 = 240 + h -> bz b2 = 128 + i -> bz b3 = 128 + j -> bz b4 = 128 + k -> utf8_char [b1; b2; b3; b4].

Inductive utf8_text : bytes -> Prop :=
| ut_nil : utf8_text []
| ut_cons u s : utf8_char u -> utf8_text s -> utf8_text (u ++ s).

(** Every string and every member name in the value is well-formed. *)
Definition utf8_value (v : json) : Prop :=
  (forall s, subvalue (JString s) v -> utf8_text s) /\
  (forall nid kvs k x, subvalue (JDict nid kvs) v -> In (k, x) kvs -> utf8_text k).

(** The text ends in an odd number of backslashes: the next byte is escaped. *)
Definition odd_run (s : bytes) : bool := fold_left (fun b c => if beq c "\"%byte then negb b else false) s false.

(** No escape \x80 to \xff in the text. *)
Definition no_high_escape (s : bytes) : Prop :=
  forall a h n b, s = a ++ "\"%byte :: "x"%byte :: h :: b -> odd_run a = false -> hex_digit h n -> n < 8.
