(** RFC 8259 at the byte level, with the value each text denotes.
    Written from the RFC; it does not mention the parser or the printer.
    [K] restricts the member names that may occur (the theorems exclude the
    one name the library reserves). *)
From Coq Require Import QArith.
From Verif Require Import Base Strconv SpecFloat Json SpecJson.
Open Scope Z_scope.

(** ws = *( %x20 / %x09 / %x0A / %x0D ) *)
Definition rfc_ws (s : bytes) : Prop :=
  Forall (fun c => c = x20 \/ c = x09 \/ c = x0a \/ c = x0d) s.

(** ** Strings *)

Definition hex_digit (c : byte) (v : Z) : Prop :=
  (48 <= bz c <= 57 /\ v = bz c - 48)
  \/ (65 <= bz c <= 70 /\ v = bz c - 55)
  \/ (97 <= bz c <= 102 /\ v = bz c - 87).

(** RFC 3629 encoding of the code points below U+10000, surrogates excluded. *)
Inductive utf8 : Z -> bytes -> Prop :=
| utf8_1 b : bz b < 128 -> utf8 (bz b) [b]
| utf8_2 cp b1 b2 hi lo : cp = hi * 64 + lo -> 2 <= hi < 32 -> 0 <= lo < 64 ->
    bz b1 = 192 + hi -> bz b2 = 128 + lo -> utf8 cp [b1; b2]
| utf8_3 cp b1 b2 b3 hi mid lo : cp = (hi * 64 + mid) * 64 + lo ->
    0 <= hi < 16 -> 0 <= mid < 64 -> 0 <= lo < 64 -> 2048 <= cp -> ~ (55296 <= cp <= 57343) ->
    bz b1 = 224 + hi -> bz b2 = 128 + mid -> bz b3 = 128 + lo -> utf8 cp [b1; b2; b3].

(** One character of a string body and the bytes it stands for. *)
Inductive rfc_char : bytes -> bytes -> Prop :=
| rc_raw c : 32 <= bz c -> c <> """"%byte -> c <> "\"%byte -> rfc_char [c] [c]
| rc_quote : rfc_char ["\"%byte; """"%byte] [""""%byte]
| rc_backslash : rfc_char ["\"%byte; "\"%byte] ["\"%byte]
| rc_slash : rfc_char ["\"%byte; "/"%byte] ["/"%byte]
| rc_b : rfc_char ["\"%byte; "b"%byte] [x08]
| rc_f : rfc_char ["\"%byte; "f"%byte] [x0c]
| rc_n : rfc_char ["\"%byte; "n"%byte] [x0a]
| rc_r : rfc_char ["\"%byte; "r"%byte] [x0d]
| rc_t : rfc_char ["\"%byte; "t"%byte] [x09]
| rc_u h1 h2 h3 h4 a b c d u : hex_digit h1 a -> hex_digit h2 b -> hex_digit h3 c -> hex_digit h4 d ->
    utf8 (((a * 16 + b) * 16 + c) * 16 + d) u ->
    rfc_char ["\"%byte; "u"%byte; h1; h2; h3; h4] u.

Inductive rfc_chars : bytes -> bytes -> Prop :=
| rcs_nil : rfc_chars [] []
| rcs_cons t u ts us : rfc_char t u -> rfc_chars ts us -> rfc_chars (t ++ ts) (u ++ us).

Inductive rfc_string : bytes -> bytes -> Prop :=
| rs body s : rfc_chars body s -> rfc_string ([""""%byte] ++ body ++ [""""%byte]) s.

(** ** Numbers *)

Definition digit (c : byte) : Prop := 48 <= bz c <= 57.
Definition digits (s : bytes) : Prop := s <> [] /\ Forall digit s.
(** Value of a digit string, most significant first. *)
Definition dec_value (s : bytes) : Z := fold_left (fun a c => a * 10 + (bz c - 48)) s 0.

(** int = zero / ( digit1-9 *DIGIT ) *)
Definition rfc_int (s : bytes) : Prop := digits s /\ (s = ["0"%byte] \/ hd x00 s <> "0"%byte).

(** The exponent part: text and value.  The library clamps absurd exponents
    (six digits and more); those are left out. *)
Inductive rfc_exp : bytes -> Z -> Prop :=
| re (e : byte) sgn ds : e = "e"%byte \/ e = "E"%byte -> digits ds -> dec_value ds < 100000 ->
    sgn = [] \/ sgn = ["+"%byte] ->
    rfc_exp (e :: sgn ++ ds) (dec_value ds)
| re_minus (e : byte) ds : e = "e"%byte \/ e = "E"%byte -> digits ds -> dec_value ds < 100000 ->
    rfc_exp (e :: "-"%byte :: ds) (- dec_value ds).

(** Sign, integer part, fraction digits, exponent: text. *)
Definition minus (neg : bool) : bytes := if neg then ["-"%byte] else [].

(** A number and the decimal (-1)^neg * c * 10^j it denotes; [whole] says it
    is written without fraction and exponent. *)
Inductive rfc_number : bytes -> bool -> Z -> Z -> bool -> Prop :=
| rn_int neg ip : rfc_int ip -> rfc_number (minus neg ++ ip) neg (dec_value ip) 0 true
| rn_frac neg ip fs : rfc_int ip -> digits fs ->
    rfc_number (minus neg ++ ip ++ "."%byte :: fs) neg (dec_value (ip ++ fs)) (- Z.of_nat (length fs)) false
| rn_exp neg ip et e : rfc_int ip -> rfc_exp et e ->
    rfc_number (minus neg ++ ip ++ et) neg (dec_value ip) e false
| rn_frac_exp neg ip fs et e : rfc_int ip -> digits fs -> rfc_exp et e ->
    rfc_number (minus neg ++ ip ++ "."%byte :: fs ++ et) neg (dec_value (ip ++ fs))
      (e - Z.of_nat (length fs)) false.

(** The value of a number in the library's data model: an int64 when written
    as an integer that fits, the correctly rounded float64 otherwise. *)
Inductive number_value : bool -> Z -> Z -> bool -> json -> Prop :=
| nv_int (neg : bool) (c : Z) : - 2 ^ 63 <= (if neg then - c else c) < 2 ^ 63 ->
    number_value neg c 0 true (JInt (if neg then - c else c))
| nv_zero neg j : number_value neg 0 j false (JFloat (FFin neg 0 (-1074)) 0)
| nv_float (neg : bool) (c j : Z) whole m e : 0 < c ->
    (whole = true -> j = 0 /\ ~ (- 2 ^ 63 <= (if neg then - c else c) < 2 ^ 63)) ->
    correctly_rounded F64 (decq c j) m e -> ~ overflows F64 (decq c j) ->
    number_value neg c j whole (JFloat (FFin neg m e) 0).

(** ** Values *)

(** The last member named k. *)
Fixpoint last_member (k : bytes) (ms : list (bytes * json)) : option json :=
  match ms with
  | [] => None
  | (k', v) :: ms' => match last_member k ms' with
                      | Some w => Some w
                      | None => if bseq k k' then Some v else None
                      end
  end.

(** The members kvs of the object written with members ms: sorted by name,
    the last of several equal names wins. *)
Definition object_value (ms kvs : list (bytes * json)) : Prop :=
  keys_increasing kvs /\ forall k, lookup k kvs = last_member k ms.

Section Grammar.
Variable K : bytes -> Prop.

Inductive rfc_value : bytes -> json -> Prop :=
| rv_null : rfc_value ["n"; "u"; "l"; "l"]%byte JNull
| rv_true : rfc_value ["t"; "r"; "u"; "e"]%byte (JBool true)
| rv_false : rfc_value ["f"; "a"; "l"; "s"; "e"]%byte (JBool false)
| rv_number t neg c j whole v : rfc_number t neg c j whole -> number_value neg c j whole v -> rfc_value t v
| rv_string t s : rfc_string t s -> rfc_value t (JString s)
| rv_array_empty w : rfc_ws w -> rfc_value (["["%byte] ++ w ++ ["]"%byte]) (JArray [])
| rv_array t l : rfc_elements t l -> rfc_value (["["%byte] ++ t ++ ["]"%byte]) (JArray l)
| rv_object_empty w : rfc_ws w -> rfc_value (["{"%byte] ++ w ++ ["}"%byte]) (JDict 0 [])
| rv_object t ms kvs : rfc_members t ms -> object_value ms kvs ->
    rfc_value (["{"%byte] ++ t ++ ["}"%byte]) (JDict 0 kvs)
with rfc_elements : bytes -> list json -> Prop :=
| el_one w1 t w2 v : rfc_ws w1 -> rfc_value t v -> rfc_ws w2 -> rfc_elements (w1 ++ t ++ w2) [v]
| el_more w1 t w2 v t' l : rfc_ws w1 -> rfc_value t v -> rfc_ws w2 -> rfc_elements t' l ->
    rfc_elements (w1 ++ t ++ w2 ++ [","%byte] ++ t') (v :: l)
with rfc_members : bytes -> list (bytes * json) -> Prop :=
| mb_one t m : rfc_member t m -> rfc_members t [m]
| mb_more t m t' ms : rfc_member t m -> rfc_members t' ms -> rfc_members (t ++ [","%byte] ++ t') (m :: ms)
with rfc_member : bytes -> bytes * json -> Prop :=
| mb w1 kt k w2 w3 t w4 v : rfc_ws w1 -> rfc_string kt k -> K k -> rfc_ws w2 -> rfc_ws w3 ->
    rfc_value t v -> rfc_ws w4 ->
    rfc_member (w1 ++ kt ++ w2 ++ [":"%byte] ++ w3 ++ t ++ w4) (k, v).

(** JSON-text = ws value ws *)
Inductive rfc_text : bytes -> json -> Prop :=
| rt w1 t w2 v : rfc_ws w1 -> rfc_value t v -> rfc_ws w2 -> rfc_text (w1 ++ t ++ w2) v.
End Grammar.
