(** Go's syntax of floating-point numbers as strconv.ParseFloat documents it
    (C27): decimal or hexadecimal, with underscores between digits. *)
From Coq Require Import QArith.
From Verif Require Import Base Strconv SpecFloat.
Open Scope Z_scope.

(** A digit and its value. *)
Definition fdigit (hex : bool) (c : byte) (v : Z) : Prop :=
  (48 <= bz c <= 57 /\ v = bz c - 48)
  \/ (hex = true /\ 97 <= bz c <= 102 /\ v = bz c - 87)
  \/ (hex = true /\ 65 <= bz c <= 70 /\ v = bz c - 55).
Definition radix (hex : bool) : Z := if hex then 16 else 10.

(** A string of digits and its value. *)
Inductive fdigits (hex : bool) : bytes -> Z -> Prop :=
| fdigits_nil : fdigits hex [] 0
| fdigits_snoc s v c d : fdigits hex s v -> fdigit hex c d -> fdigits hex (s ++ [c]) (v * radix hex + d).

Definition without_underscores (s : bytes) : bytes := filter (fun c => negb (beq c "_"%byte)) s.

(** A sign, or none. *)
Inductive sign_text : bytes -> bool -> Prop :=
| sg_none : sign_text [] false
| sg_plus : sign_text ["+"%byte] false
| sg_minus : sign_text ["-"%byte] true.

(** Digits with at most one point among them and at least one digit: the value
    without the point, and the number of digits behind it. *)
Inductive mantissa (hex : bool) : bytes -> Z -> Z -> Prop :=
| mn_whole s v : s <> [] -> fdigits hex s v -> mantissa hex s v 0
| mn_point i f v : i ++ f <> [] -> fdigits hex (i ++ f) v -> mantissa hex (i ++ "."%byte :: f) v (Z.of_nat (length f)).

(** The value [v] of the exponent's digits as it is used: its first five
    significant digits. *)
Definition cut_exponent (v e : Z) : Prop :=
  (v < 100000 /\ e = v) \/ (10000 <= e < 100000 /\ exists k, 0 < k /\ e = v / 10 ^ k).

(** The exponent: none in a decimal number is 0, a hexadecimal number must
    have one. *)
Inductive exponent (hex : bool) : bytes -> Z -> Prop :=
| ex_none : hex = false -> exponent hex [] 0
| ex_some (x : byte) sg ds neg v e (d : byte) r :
    (if hex then x = "p"%byte \/ x = "P"%byte else x = "e"%byte \/ x = "E"%byte) ->
    sign_text sg neg -> ds = d :: r -> d <> "_"%byte -> fdigits false (without_underscores ds) v -> cut_exponent v e ->
    exponent hex (x :: sg ++ ds) (if neg then - e else e).

(** Every underscore is between two digits; 0x counts as a digit. *)
Definition underscores_between (hex : bool) (prefix s : bytes) : Prop :=
  forall p q, s = p ++ "_"%byte :: q ->
    ((hex = true /\ p = prefix) \/ exists p' c d, p = p' ++ [c] /\ fdigit hex c d)
    /\ exists c d q', q = c :: q' /\ fdigit hex c d.

(** The text [s] is the number c * 10^j, or c * 2^j if it is hexadecimal,
    negated if [neg]. *)
Inductive go_float : bytes -> bool -> bool -> Z -> Z -> Prop :=
| gf (sg : bytes) (neg hex : bool) (prefix m e : bytes) (c n x : Z) :
    sign_text sg neg ->
    (if hex then prefix = ["0"; "x"]%byte \/ prefix = ["0"; "X"]%byte else prefix = []) ->
    mantissa hex (without_underscores m) c n ->
    exponent hex e x ->
    underscores_between hex prefix (prefix ++ m ++ e) ->
    go_float (sg ++ prefix ++ m ++ e) neg hex c (x - (if hex then 4 * n else n)).

(** The words for infinity and NaN, in any case. *)
Inductive special_float : bytes -> fl -> Prop :=
| sf_inf sg neg (w : bytes) : sign_text sg neg -> (lowers w = B "inf" \/ lowers w = B "infinity") -> special_float (sg ++ w) (FInf neg)
| sf_nan w : lowers w = B "nan" -> special_float w FNaN.

(** The float64 a text stands for; a number that is too large has none. *)
Inductive float_value (s : bytes) : fl -> Prop :=
| fv_special f : special_float s f -> float_value s f
| fv_number neg hex c j x f :
    go_float s neg hex c j -> x = (if hex : bool then fq c j else decq c j) -> ~ overflows F64 x -> rounds F64 neg x f ->
    float_value s f.
