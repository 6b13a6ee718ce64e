(** What Unmarshal makes of scalars, for each type of target: a table that
    does not mention the functions that convert. *)
From Coq Require Import QArith Qabs.
From Verif Require Import Base Strconv SpecFloat SpecFloatText Json SpecJson SpecRFC SpecScalar Heap Gotypes Access Unmarshal.
Open Scope Z_scope.

(** ** Numbers *)

(** The bit widths of Go's integers. *)
Definition int_width (b : Z) : Prop := In b [8; 16; 32; 64].
Definition int_kind (k : ikind) : Prop := match k with Signed b | Unsigned b => int_width b end.

(** x is the integer of kind k with the same low bits as z. *)
Definition low_bits (k : ikind) (z x : Z) : Prop :=
  match k with
  | Signed b => - 2 ^ (b - 1) <= x < 2 ^ (b - 1) /\ exists q, z = x + q * 2 ^ b
  | Unsigned b => 0 <= x < 2 ^ b /\ exists q, z = x + q * 2 ^ b
  end.

(** x as a number of a variable of 32 or 64 bits. *)
Definition fits_width (bit : Z) (g f : fl) : Prop := bit = 64 /\ f = g \/ bit = 32 /\ narrows g f.

(** f is a finite number whose integral part is z, and z is an int64. *)
Definition truncates (f : fl) (z : Z) : Prop :=
  exists neg m e a, f = FFin neg m e /\ 0 <= m /\ (inject_Z a <= fq m e /\ fq m e < inject_Z (a + 1))%Q
    /\ z = (if neg then - a else a) /\ - 2 ^ 63 <= z < 2 ^ 63.

(** The decimal numeral of an integer, without leading zeros. *)
Definition decimal_text (s : bytes) (z : Z) : Prop :=
  exists ip, rfc_int ip /\ (s = ip /\ z = dec_value ip \/ s = "-"%byte :: ip /\ z = - dec_value ip /\ z <> 0).

(** f with six decimals: the nearest multiple of 10^-6, the even one of two. *)
Definition six_decimals (f : fl) (s : bytes) : Prop :=
  match f with
  | FNaN => s = B "NaN"
  | FInf neg => s = if neg then B "-Inf" else B "+Inf"
  | FFin neg m e => exists n ds fs, s = (if neg then ["-"%byte] else []) ++ ds ++ "."%byte :: fs
      /\ rfc_int ds /\ digits fs /\ length fs = 6%nat
      /\ dec_value (ds ++ fs) = n
      /\ forall k, (Qabs (fq m e * inject_Z (10 ^ 6) - inject_Z n) <= Qabs (fq m e * inject_Z (10 ^ 6) - inject_Z k))%Q
           /\ ((Qabs (fq m e * inject_Z (10 ^ 6) - inject_Z n) == Qabs (fq m e * inject_Z (10 ^ 6) - inject_Z k))%Q -> k = n \/ Z.even n = true)
  end.

(** One of the words for true, in upper or lower case. *)
Definition in_case (s w : bytes) : Prop := Forall2 (fun u c : byte => u = c \/ (97 <= bz c <= 122 /\ bz u = bz c - 32)) s w.
Definition yes_word (s : bytes) : Prop :=
  in_case s (B "true") \/ in_case s (B "yes") \/ in_case s (B "on") \/ s = B "1".

(** ** The table *)

Section Table.
(** The number a string with currency signs stands for (C35), utils.ToBool,
    timeutils.ParseTimeStr. *)
Context (amount : bytes -> bytes) (to_bool : bytes -> bool) (parse_time : bytes -> option bytes).

Inductive converts : json -> gty -> vcell -> Prop :=
(* integers *)
| cv_int_int z k x : int_kind k -> low_bits k z x -> converts (JInt z) (TInt k) (VInt x)
| cv_int_float z bit g f : rounds F64 (z <? 0) (inject_Z (Z.abs z)) g -> fits_width bit g f -> converts (JInt z) (TFloat bit) (VFloat f)
| cv_int_bool z b : (b = true <-> z <> 0) -> converts (JInt z) TBool (VBool b)
| cv_int_string z s t : decimal_text s z -> t = TString \/ t = TTri -> converts (JInt z) t (VString s)
| cv_int_iface z : converts (JInt z) TIface (VIface (Some (DynInt z)))
| cv_int_json z t : t = TJsonObj \/ t = TJsonPtr KInt -> converts (JInt z) t (VJson (Some (JInt z)))
| cv_int_jstring z s : decimal_text s z -> converts (JInt z) (TJsonPtr KString) (VJson (Some (JString s)))
(* booleans *)
| cv_bool_int b k : int_width k -> converts (JBool b) (TInt (Signed k)) (VInt (if b then 1 else 0))
| cv_bool_float (b : bool) bit m e : bit = 32 \/ bit = 64 -> canon F64 m e = true -> (fq m e == inject_Z (if b then 1 else 0))%Q ->
    converts (JBool b) (TFloat bit) (VFloat (FFin false m e))
| cv_bool_bool b : converts (JBool b) TBool (VBool b)
| cv_bool_string b t : t = TString \/ t = TTri -> converts (JBool b) t (VString (if b then B "true" else B "false"))
| cv_bool_iface b : converts (JBool b) TIface (VIface (Some (DynBool b)))
| cv_bool_json b t : t = TJsonObj \/ t = TJsonPtr KBool -> converts (JBool b) t (VJson (Some (JBool b)))
| cv_bool_jstring b : converts (JBool b) (TJsonPtr KString) (VJson (Some (JString (if b then B "true" else B "false"))))
(* fractions *)
| cv_float_int f bit k z x : int_width k -> truncates f z -> low_bits (Signed k) z x -> converts (JFloat f bit) (TInt (Signed k)) (VInt x)
| cv_float_float f bit bit' g : fl_ok F64 f = true -> fits_width bit' f g -> converts (JFloat f bit) (TFloat bit') (VFloat g)
| cv_float_bool f bit b : fl_ok F64 f = true -> (b = false <-> exists neg e, f = FFin neg 0 e) -> converts (JFloat f bit) TBool (VBool b)
| cv_float_string f bit s t : fl_ok F64 f = true -> six_decimals f s -> t = TString \/ t = TTri -> converts (JFloat f bit) t (VString s)
| cv_float_iface f bit : converts (JFloat f bit) TIface (VIface (Some (DynFloat f)))
| cv_float_json f bit t : t = TJsonObj \/ t = TJsonPtr KFloat -> converts (JFloat f bit) t (VJson (Some (JFloat f bit)))
| cv_float_jstring f bit s : fl_ok F64 f = true -> six_decimals f s -> converts (JFloat f bit) (TJsonPtr KString) (VJson (Some (JString s)))
| cv_float_jint f bit z : truncates f z -> converts (JFloat f bit) (TJsonPtr KInt) (VJson (Some (JInt z)))
(* strings *)
| cv_string_int s k z x : s <> [] -> int_width k -> numeral (amount s) z -> - 2 ^ 63 <= z < 2 ^ 63 -> low_bits (Signed k) z x ->
    converts (JString s) (TInt (Signed k)) (VInt x)
| cv_string_uint s k x : s <> [] -> int_width k -> digits (amount s) -> dec_value (amount s) < 2 ^ 64 -> low_bits (Unsigned k) (dec_value (amount s)) x ->
    converts (JString s) (TInt (Unsigned k)) (VInt x)
| cv_string_float s bit g f : s <> [] -> float_value (amount s) g -> fits_width bit g f ->
    converts (JString s) (TFloat bit) (VFloat f)
| cv_string_bool s : converts (JString s) TBool (VBool (to_bool s))
| cv_string_string s t : t = TString \/ t = TTri -> converts (JString s) t (VString s)
| cv_string_time s x : s <> [] -> parse_time s = x -> converts (JString s) TTime (VTime x)
| cv_string_no_time : converts (JString []) TTime (VTime None)
| cv_string_iface s : converts (JString s) TIface (VIface (Some (DynString s)))
| cv_string_json s t : t = TJsonObj \/ t = TJsonPtr KString -> converts (JString s) t (VJson (Some (JString s)))
| cv_string_jbool s b : (b = true <-> yes_word s) -> converts (JString s) (TJsonPtr KBool) (VJson (Some (JBool b))).

(** Nothing is written and nothing is reported: an empty string for a number,
    and a JSON variable that is not a pointer. *)
Definition ignored (j : json) (t : gty) : Prop :=
  match j, t with
  | JString [], (TInt _ | TFloat _) => True
  | JInt _, TJsonVal (KInt | KString) => True
  | JBool _, TJsonVal (KBool | KString) => True
  | JFloat _ _, TJsonVal (KFloat | KString | KInt | KBool) => True
  | JString _, TJsonVal (KString | KBool) => True
  | _, _ => False
  end.

(** An error that says that the types do not fit. *)
Definition mismatched (j : json) (t : gty) : Prop :=
  match j, t with
  | (JInt _ | JBool _ | JFloat _ _), (TSlice _ | TArray _ _ | TMap _ | TMapOther _ | TStruct _ _ | TOther) => True
  | JString _, (TArray _ _ | TMap _ | TMapOther _ | TStruct _ _ | TOther) => True
  | JInt _, (TJsonVal k) => k <> KInt /\ k <> KString
  | JBool _, (TJsonVal k) => k <> KBool /\ k <> KString
  | JFloat _ _, (TJsonVal k) => k = KDict \/ k = KArray
  | JString _, (TJsonVal k) => k <> KString /\ k <> KBool
  | _, _ => False
  end.

(** The same for a pointer to JSON, which a nil pointer does not survive: it
    is replaced by a pointer to a zero value before the error is found. *)
Definition mismatched_json (j : json) (k : jkind) : Prop :=
  match j with
  | JInt _ => k <> KInt /\ k <> KString
  | JBool _ => k <> KBool /\ k <> KString
  | JFloat _ _ => k <> KFloat /\ k <> KString /\ k <> KInt
  | JString _ => k <> KString /\ k <> KBool
  | _ => False
  end.

(** A string that is no number of the range. *)
Definition no_number (s : bytes) (t : gty) : Prop :=
  s <> [] /\
  match t with
  | TInt (Signed _) => forall z, numeral (amount s) z -> ~ (- 2 ^ 63 <= z < 2 ^ 63)
  | TInt (Unsigned _) => digits (amount s) -> 2 ^ 64 <= dec_value (amount s)
  | TFloat _ => forall g, ~ float_value (amount s) g
  | _ => False
  end.

(** A run-time panic. *)
Definition crashes (j : json) (t : gty) : Prop :=
  match j, t with
  | (JBool _ | JFloat _ _), TInt (Unsigned _) => True
  | (JInt _ | JBool _ | JFloat _ _ | JString _), (TMethods | TSer _ _) => True
  | _, _ => False
  end.
End Table.

(** m' is m with c in the variable a. *)
Definition written (m : mem) (a : addr) (c : vcell) (m' : mem) : Prop :=
  nth_error m' a = Some c /\ length m' = length m /\ forall x, x <> a -> nth_error m' x = nth_error m x.

(** ** The value that Unmarshal is about *)

(** What keys select; without keys, a dict, array or string itself. *)
Definition selected (doc : json) (keys : list bytes) (j : json) : Prop :=
  keys <> [] /\ Get doc keys = ROk j
  \/ keys = [] /\ j = doc /\ match doc with JDict _ _ | JArray _ | JString _ => True | _ => False end.

(** Null, for Unmarshal: what the keys select is null, or there are no keys and
    the value is no dict, array or string.  (JSONBool, JSONInt and JSONFloat
    have no Unmarshal method of their own.) *)
Definition counts_as_null (doc : json) (keys : list bytes) : Prop :=
  keys <> [] /\ Get doc keys = ROk JNull
  \/ keys = [] /\ match doc with JDict _ _ | JArray _ | JString _ => False | _ => True end.

(** ** Zero values *)

Definition zero_of (k : jkind) : json :=
  match k with
  | KDict => JDict 0 [] | KArray => JArray [] | KString => JString [] | KInt => JInt 0
  | KFloat => JFloat (FFin false 0 (emin F64)) 0 | KBool => JBool false
  end.

(** The variable at a, of type t, has the zero value of its type. *)
Inductive zero_var (m : mem) : gty -> addr -> Prop :=
| zv_bool a : nth_error m a = Some (VBool false) -> zero_var m TBool a
| zv_int k a : nth_error m a = Some (VInt 0) -> zero_var m (TInt k) a
| zv_float bit a : nth_error m a = Some (VFloat (FFin false 0 (emin F64))) -> zero_var m (TFloat bit) a
| zv_string a : nth_error m a = Some (VString []) -> zero_var m TString a
| zv_tri a : nth_error m a = Some (VString []) -> zero_var m TTri a
| zv_time a : nth_error m a = Some (VTime None) -> zero_var m TTime a
| zv_slice t a : nth_error m a = Some (VSlice None) -> zero_var m (TSlice t) a
| zv_array l t a : nth_error m a = Some (VArray l) -> Forall (zero_var m t) l -> zero_var m (TArray (length l) t) a
| zv_map t a : nth_error m a = Some (VMap None) -> zero_var m (TMap t) a
| zv_mapo t a : nth_error m a = Some (VMap None) -> zero_var m (TMapOther t) a
| zv_ptr t a : nth_error m a = Some (VPtr None) -> zero_var m (TPtr t) a
| zv_struct n fs l a : nth_error m a = Some (VStruct l) -> Forall2 (fun f b => zero_var m (snd f) b) fs l -> zero_var m (TStruct n fs) a
| zv_iface a : nth_error m a = Some (VIface None) -> zero_var m TIface a
| zv_methods a : nth_error m a = Some (VIface None) -> zero_var m TMethods a
| zv_jsonobj a : nth_error m a = Some (VJson None) -> zero_var m TJsonObj a
| zv_jsonptr k a : nth_error m a = Some (VJson None) -> zero_var m (TJsonPtr k) a
| zv_jsonval k a : nth_error m a = Some (VJson (Some (zero_of k))) -> zero_var m (TJsonVal k) a
| zv_std a : nth_error m a = Some (VStd None) -> zero_var m TStd a
| zv_other a : nth_error m a = Some VOther -> zero_var m TOther a
| zv_serial n f a : nth_error m a = Some (VIface None) -> zero_var m (TSer n f) a.

(** m' is m with more variables. *)
Definition extends (m m' : mem) : Prop := exists d, m' = m ++ d.

(** m1 is m with the variable a leading to the new variable b, in the way c
    says, which is of type t and has the zero value. *)
Definition leads_to_new (m : mem) (a : addr) (c : vcell) (t : gty) (b : addr) (m1 : mem) : Prop :=
  (length m <= b)%nat /\ zero_var m1 t b /\ nth_error m1 a = Some c /\ forall x, (x < length m)%nat -> x <> a -> nth_error m1 x = nth_error m x.

(** What is in the memory [m1] and not in [m]: a variable [b] of the type [t] with
    the zero value, and no variable of [m] is changed. *)
Definition new_variable (m : mem) (t : gty) (b : addr) (m1 : mem) : Prop :=
  extends m m1 /\ (length m <= b)%nat /\ zero_var m1 t b.
