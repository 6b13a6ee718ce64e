(** The language that Parse accepts (C54): RFC 8259 and everything else that
    gets through, as a grammar. *)
From Verif Require Import Base Strconv SpecFloat SpecFloatText Json SpecJson SpecRFC SpecScalar SpecText.
Open Scope Z_scope.

(** ** Words without quotes *)

Definition delimiter (c : byte) : Prop := In c [" "; ":"; ","; x09; x0d; x0a; "}"; "]"]%byte.
Definition bare (t : bytes) : Prop := Forall (fun c => ~ delimiter c) t.
Definition quote (c : byte) : Prop := c = """"%byte \/ c = "'"%byte.
Definition bracket (c : byte) : Prop := c = "["%byte \/ c = "{"%byte.

(** <...> is the notation of a reference. *)
Definition angled (t : bytes) : Prop := exists body, t = "<"%byte :: body ++ [">"%byte].
Definition one_of (t : bytes) (ws : list string) : Prop := In (lowers t) (map list_byte_of_string ws).
Definition keyword (t : bytes) : Prop := one_of t ["null"; "none"; "true"; "yes"; "false"; "no"]%string.
Definition int64_text (t : bytes) (z : Z) : Prop := numeral t z /\ - 2 ^ 63 <= z < 2 ^ 63.

(** What a word stands for; <...> with anything but an integer inside stands
    for nothing. *)
Inductive word_value : bytes -> json -> Prop :=
| wv_ref body n : int64_text body n -> word_value ("<"%byte :: body ++ [">"%byte]) (JPtr n)
| wv_null t : one_of t ["null"; "none"]%string -> word_value t JNull
| wv_true t : one_of t ["true"; "yes"]%string -> word_value t (JBool true)
| wv_false t : one_of t ["false"; "no"]%string -> word_value t (JBool false)
| wv_int t z : int64_text t z -> word_value t (JInt z)
| wv_float t f : (forall z, ~ int64_text t z) -> float_value t f -> word_value t (JFloat f 0)
| wv_string t : ~ angled t -> ~ keyword t -> (forall z, ~ int64_text t z) -> (forall f, ~ float_value t f) -> word_value t (JString t).

(** ** Strings the input ends in: an escape with hexadecimal digits must not
    be the last thing. *)
Inductive unfinished (q : byte) : bytes -> bytes -> Prop :=
| un_nil : unfinished q [] []
| un_last t u : lib_char q t u -> (length t <= 2)%nat -> unfinished q t u
| un_cons t u ts us : lib_char q t u -> ts <> [] -> unfinished q ts us -> unfinished q (t ++ ts) (u ++ us).

(** ** Members *)

(** Names: quoted, or a word, which may be empty. *)
Inductive name : bytes -> bytes -> Prop :=
| nm_quoted q body u : quote q -> lib_chars q body u -> name (q :: body ++ [q]) u
| nm_word t : bare t -> (forall c r, t = c :: r -> ~ quote c) -> name t t.

(** The dict with members [ms]: the reserved name gives the node id. *)
Definition members_value (ms : list (bytes * json)) (nid : Z) (kvs : list (bytes * json)) : Prop :=
  (forall v, In (B "___jnid_", v) ms -> exists z, v = JInt z)
  /\ nid = match last_member (B "___jnid_") ms with Some (JInt z) => z | _ => 0 end
  /\ keys_increasing kvs
  /\ (forall k, k <> B "___jnid_" -> lookup k kvs = last_member k ms)
  /\ lookup (B "___jnid_") kvs = None.

(** ** Values

    [lval complete t v ids]: the text [t] is the value [v]; [ids] are the node
    ids in it.  If [complete] is false, the text ends because the input does.
    A comma may be the last thing in front of a closing bracket. *)
Inductive lval : bool -> bytes -> json -> list Z -> Prop :=
| lv_word t v : t <> [] -> bare t -> (forall c r, t = c :: r -> ~ quote c /\ ~ bracket c) -> word_value t v -> lval true t v []
| lv_quoted q body u : quote q -> lib_chars q body u -> lval true (q :: body ++ [q]) (JString u) []
| lv_quoted_cut q body u : quote q -> unfinished q body u -> lval false (q :: body) (JString u) []
| lv_array complete t l ids : larray complete t l ids -> lval complete ("["%byte :: t) (JArray l) ids
| lv_dict complete t ms nid kvs ids : ldict complete t ms ids -> members_value ms nid kvs ->
    lval complete ("{"%byte :: t) (JDict nid kvs) (ids ++ if 0 <? nid then [nid] else [])
(** What is behind the opening bracket. *)
with larray : bool -> bytes -> list json -> list Z -> Prop :=
| la_cut : larray false [] [] []
| la_close w : rfc_ws w -> larray true (w ++ ["]"%byte]) [] []
| la_last w1 t w2 v ids : rfc_ws w1 -> lval true t v ids -> rfc_ws w2 -> larray true (w1 ++ t ++ w2 ++ ["]"%byte]) [v] ids
| la_more complete w1 t w2 v ids t' l ids' : rfc_ws w1 -> lval true t v ids -> rfc_ws w2 -> larray complete t' l ids' ->
    larray complete (w1 ++ t ++ w2 ++ ","%byte :: t') (v :: l) (ids ++ ids')
with ldict : bool -> bytes -> list (bytes * json) -> list Z -> Prop :=
| ld_cut : ldict false [] [] []
| ld_close w : rfc_ws w -> ldict true (w ++ ["}"%byte]) [] []
| ld_last w1 kt k w2 w3 t w4 v ids : rfc_ws w1 -> name kt k -> rfc_ws w2 -> rfc_ws w3 -> lval true t v ids -> rfc_ws w4 ->
    ldict true (w1 ++ kt ++ w2 ++ ":"%byte :: w3 ++ t ++ w4 ++ ["}"%byte]) [(k, v)] ids
| ld_more complete w1 kt k w2 w3 t w4 v ids t' ms ids' : rfc_ws w1 -> name kt k -> rfc_ws w2 -> rfc_ws w3 -> lval true t v ids -> rfc_ws w4 -> ldict complete t' ms ids' ->
    ldict complete (w1 ++ kt ++ w2 ++ ":"%byte :: w3 ++ t ++ w4 ++ ","%byte :: t') ((k, v) :: ms) (ids ++ ids').

(** What may follow the text of a value: anything behind a bracket or a quote,
    a delimiter behind a word, and nothing if the input ended too early. *)
Definition may_follow (complete : bool) (t rest : bytes) : Prop :=
  (complete = false -> rest = [])
  /\ (forall c t', t = c :: t' -> ~ quote c -> ~ bracket c -> forall d r, rest = d :: r -> delimiter d).

(** The document: white space, a value, and whatever is behind it is not read;
    no two dicts have the same node id. *)
Definition lenient_text (s : bytes) (v : json) (used : nat) : Prop :=
  exists w complete t ids rest, s = w ++ t ++ rest /\ rfc_ws w /\ lval complete t v ids /\ NoDup ids /\ may_follow complete t rest
    /\ used = (length w + length t)%nat.
