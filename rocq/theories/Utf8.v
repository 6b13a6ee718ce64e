(** unicode/utf8.EncodeRune restricted to the runes jsonutils can pass to it
    (0 .. 0xFFFF; jsonutils.go:186).  Surrogates become U+FFFD. *)
From Verif Require Import Base.

Definition encode_rune (r : Z) : bytes :=
  if r <? 128 then [zb r]
  else if r <? 2048 then [zb (192 + r / 64); zb (128 + r mod 64)]
  else if (55296 <=? r) && (r <=? 57343) then [zb 239; zb 191; zb 189]
  else [zb (224 + r / 4096); zb (128 + (r / 64) mod 64); zb (128 + r mod 64)].
