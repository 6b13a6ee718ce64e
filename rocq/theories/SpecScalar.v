(** Vocabulary for scalar conversions, error excerpts and the helper
    functions. *)
From Verif Require Import Base Strconv Json SpecJson SpecRFC.

(** A decimal numeral with an optional sign, and the integer it denotes. *)
Inductive numeral : bytes -> Z -> Prop :=
| nu_plain ds : digits ds -> numeral ds (dec_value ds)
| nu_plus ds : digits ds -> numeral ("+"%byte :: ds) (dec_value ds)
| nu_minus ds : digits ds -> numeral ("-"%byte :: ds) (- dec_value ds).

(** The spellings of a lower-case letter that Unicode case folding
    identifies with it: either case, U+017F for s, U+212A for k. *)
Inductive spells : bytes -> byte -> Prop :=
| sp_lower c : spells [c] c
| sp_upper (c u : byte) : 97 <= bz c <= 122 -> bz u = bz c - 32 -> spells [u] c
| sp_long_s : spells [xc5; xbf] "s"%byte
| sp_kelvin : spells [xe2; x84; xaa] "k"%byte.

(** s is the word w up to case. *)
Inductive is_word : bytes -> bytes -> Prop :=
| iw_nil : is_word [] []
| iw_cons a c s w : spells a c -> is_word s w -> is_word (a ++ s) (c :: w).
