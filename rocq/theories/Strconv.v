(** Model of the parts of Go's [strconv] and [fmt] packages that jsonutils
    calls.  The sources of these packages are not in /repo; the functions
    below follow the documented behaviour of Go 1.18 (go.mod:3) and are part
    of the trusted base (DESIGN.md).  Call sites in /repo are cited. *)
From Verif Require Import Base.
Open Scope Z_scope.

(** ** Integers *)

Definition int64_min : Z := - 2 ^ 63.
Definition int64_max : Z := 2 ^ 63 - 1.
Definition in_int64 (z : Z) : bool := (int64_min <=? z) && (z <=? int64_max).
Definition uint64_max : Z := 2 ^ 64 - 1.

(** Unsigned decimal digits: [Some n] iff the string is a non-empty run of
    ASCII digits. *)
Fixpoint digits_acc (acc : Z) (s : bytes) : option Z :=
  match s with
  | [] => Some acc
  | c :: s' => if is_digit c then digits_acc (acc * 10 + digit_val c) s' else None
  end.

Definition parse_digits (s : bytes) : option Z :=
  match s with [] => None | _ => digits_acc 0 s end.

(** strconv.ParseInt(s, 10, 64); [None] stands for any error.
    Used at jsonutils.go:265,286, access.go:367, stringsegment.go:67,
    unmarshal.go:368. *)
Definition parse_int (s : bytes) : option Z :=
  match s with
  | [] => None
  | c :: s' =>
      let '(neg, ds) := if beq c "+"%byte then (false, s')
                        else if beq c "-"%byte then (true, s') else (false, s) in
      match parse_digits ds with
      | None => None
      | Some n => let v := if neg then - n else n in
                  if in_int64 v then Some v else None
      end
  end.

(** strconv.ParseUint(s, 10, 64), used at unmarshal.go:376. *)
Definition parse_uint (s : bytes) : option Z :=
  match parse_digits s with
  | None => None
  | Some n => if n <=? uint64_max then Some n else None
  end.

(** Decimal digits of a non-negative integer, most significant first. *)
Fixpoint fmt_digits (fuel : nat) (n : Z) (acc : bytes) : bytes :=
  match fuel with
  | O => acc
  | S k => let acc' := digit_byte (n mod 10) :: acc in
           if n <? 10 then acc' else fmt_digits k (n / 10) acc'
  end.

Definition format_uint (n : Z) : bytes := fmt_digits (S (Z.to_nat (Z.log2 n))) n [].

(** strconv.FormatInt(z, 10) and fmt.Sprintf("%d", z): string.go:32,
    jsonpointer.go:60, write.go:54, marshal.go:173, unmarshal.go:97,
    stringsegment.go:60, querystring.go:150, utils.go:84,140. *)
Definition format_int (z : Z) : bytes :=
  if z <? 0 then "-"%byte :: format_uint (- z) else format_uint z.

(** ** Binary floating point

    A value is NaN, an infinity, or (-1)^neg * m * 2^e in the canonical form
    described by [fl_ok].  Both float64 and float32 are instances. *)
Record fformat := { prec : Z; emin : Z; emax : Z }.
Definition F64 : fformat := {| prec := 53; emin := -1074; emax := 971 |}.
Definition F32 : fformat := {| prec := 24; emin := -149; emax := 104 |}.

Inductive fl : Set :=
| FNaN
| FInf (neg : bool)
| FFin (neg : bool) (m e : Z).

Definition canon (F : fformat) (m e : Z) : bool :=
  (0 <=? m) && (m <? 2 ^ prec F) && (emin F <=? e) && (e <=? emax F)
  && ((2 ^ (prec F - 1) <=? m) || (e =? emin F)).

Definition fl_ok (F : fformat) (f : fl) : bool :=
  match f with FFin _ m e => canon F m e | _ => true end.

Definition fzero (F : fformat) (neg : bool) : fl := FFin neg 0 (emin F).

(** num/den to the nearest integer, ties to even (num >= 0, den > 0). *)
Definition rne (num den : Z) : Z :=
  let q := num / den in
  let r := num mod den in
  match Z.compare (2 * r) den with
  | Lt => q
  | Gt => q + 1
  | Eq => if Z.even q then q else q + 1
  end.

(** (p/q) / 2^e as a fraction. *)
Definition scale2 (p q e : Z) : Z * Z :=
  if 0 <=? e then (p, q * 2 ^ e) else (p * 2 ^ (- e), q).

(** Round the positive rational p/q to the format, to nearest, ties to even;
    [None] is overflow. *)
Definition round_pos (F : fformat) (p q : Z) : option (Z * Z) :=
  let e0 := Z.max (emin F) (Z.log2 p - Z.log2 q - prec F) in
  let '(n0, d0) := scale2 p q e0 in
  let e := if n0 / d0 <? 2 ^ prec F then e0 else e0 + 1 in
  let '(n, d) := scale2 p q e in
  let m := rne n d in
  let '(m, e) := if m =? 2 ^ prec F then (2 ^ (prec F - 1), e + 1) else (m, e) in
  if emax F <? e then None else Some (m, e).

(** Round c * 10^j (c > 0). *)
Definition round_dec (F : fformat) (c j : Z) : option (Z * Z) :=
  if 0 <=? j then round_pos F (c * 10 ^ j) 1 else round_pos F c (10 ^ (- j)).

(** Round c * 2^k (c > 0). *)
Definition round_bin (F : fformat) (c k : Z) : option (Z * Z) :=
  if 0 <=? k then round_pos F (c * 2 ^ k) 1 else round_pos F c (2 ^ (- k)).

(** *** strconv.ParseFloat *)

Definition kw_inf := Eval vm_compute in B "inf".
Definition kw_infinity := Eval vm_compute in B "infinity".
Definition kw_nan := Eval vm_compute in B "nan".

(** strconv.special, requiring the whole string to match. *)
Definition parse_special (s : bytes) : option fl :=
  let is_inf t := bseq (lowers t) kw_inf || bseq (lowers t) kw_infinity in
  match s with
  | [] => None
  | c :: s' =>
      if beq c "+"%byte then (if is_inf s' then Some (FInf false) else None)
      else if beq c "-"%byte then (if is_inf s' then Some (FInf true) else None)
      else if is_inf s then Some (FInf false)
      else if bseq (lowers s) kw_nan then Some FNaN
      else None
  end.

Definition is_hexdigit (c : byte) : bool :=
  is_digit c || ((97 <=? bz (lowerb c)) && (bz (lowerb c) <=? 102)).
Definition hexdigit_val (c : byte) : Z :=
  if is_digit c then digit_val c else bz (lowerb c) - 87.

(** The mantissa scan of strconv.readFloat: value of the digits, number of
    digits behind the point, whether a digit / an underscore was seen, rest. *)
Fixpoint scan_mant (hex : bool) (mant nfrac : Z) (sawdot sawdig under : bool) (s : bytes)
  : Z * Z * bool * bool * bytes :=
  match s with
  | [] => (mant, nfrac, sawdig, under, [])
  | c :: s' =>
      if beq c "_"%byte then scan_mant hex mant nfrac sawdot sawdig true s'
      else if beq c "."%byte then
        if sawdot then (mant, nfrac, sawdig, under, s)
        else scan_mant hex mant nfrac true sawdig under s'
      else if (if hex then is_hexdigit c else is_digit c) then
        scan_mant hex (mant * (if hex then 16 else 10) + hexdigit_val c)
                  (if sawdot then nfrac + 1 else nfrac) sawdot true under s'
      else (mant, nfrac, sawdig, under, s)
  end.

(** The exponent digits of strconv.readFloat, clamped as the Go code does. *)
Fixpoint scan_exp (e : Z) (under : bool) (s : bytes) : Z * bool * bytes :=
  match s with
  | [] => (e, under, [])
  | c :: s' =>
      if beq c "_"%byte then scan_exp e true s'
      else if is_digit c then scan_exp (if e <? 10000 then e * 10 + digit_val c else e) under s'
      else (e, under, s)
  end.

(** strconv.underscoreOK. *)
Inductive saw := SawBegin | SawDigit | SawUnder | SawOther.
Fixpoint under_scan (hex : bool) (w : saw) (s : bytes) : bool :=
  match s with
  | [] => match w with SawUnder => false | _ => true end
  | c :: s' =>
      if is_digit c || (hex && is_hexdigit c) then under_scan hex SawDigit s'
      else if beq c "_"%byte then
        match w with SawDigit => under_scan hex SawUnder s' | _ => false end
      else match w with SawUnder => false | _ => under_scan hex SawOther s' end
  end.

Definition strip_sign (s : bytes) : bool * bytes :=
  match s with
  | c :: s' => if beq c "+"%byte then (false, s')
               else if beq c "-"%byte then (true, s') else (false, s)
  | [] => (false, [])
  end.

Definition underscore_ok (s : bytes) : bool :=
  let t := snd (strip_sign s) in
  match t with
  | c0 :: c1 :: t' =>
      if beq c0 "0"%byte && (beq (lowerb c1) "b"%byte || beq (lowerb c1) "o"%byte
                             || beq (lowerb c1) "x"%byte)
      then under_scan (beq (lowerb c1) "x"%byte) SawDigit t'
      else under_scan false SawBegin t
  | _ => under_scan false SawBegin t
  end.

(** The base prefix test of strconv.readFloat: "0x" with something behind. *)
Definition strip_hex (t : bytes) : bool * bytes :=
  match t with
  | c0 :: c1 :: c2 :: t' =>
      if beq c0 "0"%byte && beq (lowerb c1) "x"%byte then (true, c2 :: t') else (false, t)
  | _ => (false, t)
  end.

(** strconv.readFloat on a whole string: sign, mantissa, exponent, whether the
    exponent is binary. *)
Definition read_float (s : bytes) : option (bool * Z * Z * bool) :=
  let '(neg, t) := strip_sign s in
  let '(hex, t) := strip_hex t in
  let '(mant, nfrac, sawdig, under, r) := scan_mant hex 0 0 false false false t in
  if negb sawdig then None else
  let expchar := if hex then "p"%byte else "e"%byte in
  let fin (e : Z) (under : bool) (r : bytes) :=
    match r with
    | [] => if under && negb (underscore_ok s) then None
            else Some (neg, mant, e - (if hex then 4 * nfrac else nfrac), hex)
    | _ => None
    end in
  match r with
  | c :: r' =>
      if beq (lowerb c) expchar then
        let '(eneg, r'') := strip_sign r' in
        match r'' with
        | d :: _ => if is_digit d then
                      let '(e, under', rest) := scan_exp 0 under r'' in
                      fin (if eneg then - e else e) under' rest
                    else None
        | [] => None
        end
      else None
  | [] => if hex then None else fin 0 under []
  end.

(** strconv.ParseFloat(s, bits); [None] stands for any error (syntax or
    range).  Used at jsonutils.go:290, access.go:413, unmarshal.go:384. *)
Definition parse_float (F : fformat) (s : bytes) : option fl :=
  match parse_special s with
  | Some f => Some f
  | None =>
      match read_float s with
      | None => None
      | Some (neg, mant, e, hex) =>
          if mant =? 0 then Some (fzero F neg)
          else match (if hex then round_bin F mant e else round_dec F mant e) with
               | Some (m, e') => Some (FFin neg m e')
               | None => None
               end
      end
  end.

(** *** strconv.FormatFloat(f, 'f', -1, bits)

    "The special precision -1 uses the smallest number of digits necessary
    such that ParseFloat will return f exactly."  Modelled literally: the
    largest power of ten 10^j such that a multiple d*10^j (one of the two
    neighbours of f, the nearer one first) is read back as f. *)
Definition reads_back (F : fformat) (m e c j : Z) : bool :=
  (0 <? c) && match round_dec F c j with
              | Some (m', e') => (m' =? m) && (e' =? e)
              | None => false
              end.

(** m * 2^e / 10^j as a fraction. *)
Definition dec_frac (m e j : Z) : Z * Z :=
  let '(p, q) := if 0 <=? e then (m * 2 ^ e, 1) else (m, 2 ^ (- e)) in
  if 0 <=? j then (p, q * 10 ^ j) else (p * 10 ^ (- j), q).

Fixpoint shortest_search (F : fformat) (fuel : nat) (m e j : Z) : Z * Z :=
  match fuel with
  | O => if 0 <=? e then (m * 2 ^ e, 0) else (m * 5 ^ (- e), e)   (* exact expansion *)
  | S k =>
      let '(n, d) := dec_frac m e j in
      let lo := n / d in
      let near := rne n d in
      let far := if near =? lo then lo + 1 else lo in
      if reads_back F m e near j then (near, j)
      else if reads_back F m e far j then (far, j)
      else shortest_search F k m e (j - 1)
  end.

(** Start exponent: 10^j0 > m * 2^e. *)
Definition shortest_start (m e : Z) : Z :=
  let k := Z.log2 m + e + 1 in if 0 <=? k then k / 3 + 1 else k / 4 + 1.

Definition shortest (F : fformat) (m e : Z) : Z * Z :=
  let j0 := shortest_start m e in
  shortest_search F (Z.to_nat (j0 - Z.min e 0 + 1)) m e j0.

Definition zeros (n : Z) : bytes := repeat "0"%byte (Z.to_nat n).

(** strconv.fmtF for the decimal d * 10^j. *)
Definition layout_f (d j : Z) : bytes :=
  let ds := format_uint d in
  if 0 <=? j then ds ++ zeros j
  else let l := Z.of_nat (length ds) in
       if 0 <? l + j then firstn (Z.to_nat (l + j)) ds ++ "."%byte :: skipn (Z.to_nat (l + j)) ds
       else "0"%byte :: "."%byte :: zeros (- j - l) ++ ds.

Definition txt_NaN := Eval vm_compute in B "NaN".
Definition txt_pInf := Eval vm_compute in B "+Inf".
Definition txt_nInf := Eval vm_compute in B "-Inf".

(** string.go:39 *)
Definition format_float (F : fformat) (f : fl) : bytes :=
  match f with
  | FNaN => txt_NaN
  | FInf false => txt_pInf
  | FInf true => txt_nInf
  | FFin neg m e =>
      (if neg then ["-"%byte] else [])
        ++ (if m =? 0 then ["0"%byte] else let '(d, j) := shortest F m e in layout_f d j)
  end.

(** float32(x) for a float64 x: the conversion FormatFloat does for bits=32. *)
Definition to_f32 (f : fl) : fl :=
  match f with
  | FFin neg m e => if m =? 0 then fzero F32 neg
                    else match round_bin F32 m e with
                         | Some (m', e') => FFin neg m' e'
                         | None => FInf neg
                         end
  | _ => f
  end.

(** float64(z) for an int64 z: access.go:406, unmarshal.go:126. *)
Definition float_of_int (z : Z) : fl :=
  if z =? 0 then fzero F64 false
  else match round_pos F64 (Z.abs z) 1 with
       | Some (m, e) => FFin (z <? 0) m e
       | None => FInf (z <? 0)
       end.

(** float64 comparison with zero (NaN differs from it, -0 does not). *)
Definition fl_is_zero (f : fl) : bool :=
  match f with FFin _ m _ => m =? 0 | _ => false end.
