(** Properties of scalar conversions, error excerpts, currency strings and
    the helper functions: C27, C28, C35, C37. *)
From Coq Require Import QArith Qpower Sorting.Sorted.
From Verif Require Import Base Strconv SpecFloat StrconvFacts RoundFacts FloatText RoundUnique SortedMap SortedMapFacts Json SpecJson
  SpecRFC SpecDict SpecScalar Printer RfcFacts ParserFacts2 PrintFacts2 Access JErrors AccessFacts ScalarFacts PropRoundtrip PropDict.
Open Scope Z_scope.

(** * C27 *)

(** An integer survives the way through its string form. *)
Theorem C27_int_via_string : forall z fuel s, in_int64 z = true ->
  GetString (JInt z) [] = ROk s -> Int_ (S fuel) (JString s) [] = Some (ROk z).
Proof.
  intros z fuel s Hz E. injection E as <-. cbn [Int_]. change (get_string0 (JInt z)) with (format_int z).
  rewrite parse_int_format by exact Hz. reflexivity.
Qed.

(** A float64 survives the way through its string form. *)
Theorem C27_float_via_string : forall f fuel s, fl_ok F64 f = true ->
  GetString (JFloat f 64) [] = ROk s -> Float_ (S fuel) (JString s) [] = Some (ROk f).
Proof.
  intros f fuel s Hf E. injection E as <-. cbn [Float_]. change (get_string0 (JFloat f 64)) with (float_string f 64).
  rewrite C39_float_text by exact Hf. reflexivity.
Qed.

(** A string converts to an integer exactly if it is a decimal numeral of an
    int64, and then to that integer; everything else is an error. *)
Theorem C27_string_int : forall fuel s,
  (forall z, Int_ (S fuel) (JString s) [] = Some (ROk z) <-> numeral s z /\ - 2 ^ 63 <= z < 2 ^ 63)
  /\ ((forall z, ~ (numeral s z /\ - 2 ^ 63 <= z < 2 ^ 63)) -> Int_ (S fuel) (JString s) [] = Some (RErr ErrInvalidJsonInt)).
Proof.
  intros fuel s. assert (E : forall z, parse_int s = Some z <-> numeral s z /\ - 2 ^ 63 <= z < 2 ^ 63).
  { intros z. rewrite parse_int_iff, in_int64_spec. reflexivity. }
  cbn [Int_]. split.
  - intros z. rewrite <- E. destruct (parse_int s); split; intros X; congruence.
  - intros H. destruct (parse_int s) as [z|] eqn:P; [|reflexivity]. exfalso. apply (H z). apply E. reflexivity.
Qed.

(** Any RFC number as a string converts to the nearest float64, or fails when
    it is too large; never to something else. *)
Theorem C27_string_float : forall fuel s neg c j is, rfc_number s neg c j is ->
  (0 < c -> ~ overflows F64 (decq c j) ->
     exists m e, Float_ (S fuel) (JString s) [] = Some (ROk (FFin neg m e)) /\ correctly_rounded F64 (decq c j) m e)
  /\ (0 < c -> overflows F64 (decq c j) -> Float_ (S fuel) (JString s) [] = Some (RErr ErrInvalidJsonFloat))
  /\ (c = 0 -> Float_ (S fuel) (JString s) [] = Some (ROk (FFin neg 0 (emin F64)))).
Proof.
  intros fuel s neg c j is H. destruct (rfc_number_read s neg c j is H) as (H1 & H2 & H3).
  cbn [Float_]. rewrite (parse_float_of_read s neg c j H1 H2). split; [|split].
  - intros Hc NO. destruct (Z.eqb_spec c 0); [lia|]. destruct (round_dec F64 c j) as [[m e]|] eqn:E.
    + exists m, e. split; [reflexivity|]. apply round_dec_nearest; [exact F64_valid | exact Hc | exact E].
    + exfalso. apply NO. apply round_dec_overflow; [exact F64_valid | exact Hc | exact E].
  - intros Hc OV. destruct (Z.eqb_spec c 0); [lia|].
    rewrite (proj2 (round_dec_overflow F64 c j F64_valid Hc) OV). reflexivity.
  - intros ->. reflexivity.
Qed.

(** The float of an integer is the nearest float64. *)
Theorem C27_int_float : forall fuel z, in_int64 z = true ->
  (z = 0 -> Float_ (S fuel) (JInt z) [] = Some (ROk (FFin false 0 (emin F64))))
  /\ (z <> 0 -> exists m e, Float_ (S fuel) (JInt z) [] = Some (ROk (FFin (z <? 0) m e))
        /\ correctly_rounded F64 (inject_Z (Z.abs z)) m e).
Proof.
  intros fuel z Hz. cbn [Float_]. unfold float_of_int. split.
  - intros ->. reflexivity.
  - intros N. destruct (Z.eqb_spec z 0); [contradiction|].
    assert (X : (xq (Z.abs z) 1 == inject_Z (Z.abs z))%Q) by (unfold xq; field).
    destruct (round_pos F64 (Z.abs z) 1) as [[m e]|] eqn:E.
    + exists m, e. split; [reflexivity|]. eapply correctly_rounded_eq; [|apply round_pos_nearest; [exact F64_valid | | |exact E]]; try lia.
      exact X.
    + exfalso. apply round_pos_overflow in E; [|exact F64_valid|lia|lia]. unfold overflows in E. rewrite X in E.
      apply in_int64_spec in Hz. assert (Z.abs z <= 2 ^ 63) as B by lia.
      assert ((inject_Z (Z.abs z) <= inject_Z (2 ^ 63))%Q) as B' by (rewrite <- Zle_Qle; exact B).
      pose proof (Qle_trans _ _ _ E B') as C. vm_compute in C. apply C. reflexivity.
Qed.

(** A string is a boolean exactly if it is one of the words, up to case. *)
Theorem C27_string_bool : forall fuel s,
  (Bool_ (S fuel) (JString s) [] = Some (ROk true)
     <-> is_word s (B "true") \/ is_word s (B "on") \/ is_word s (B "yes") \/ s = B "1")
  /\ (Bool_ (S fuel) (JString s) [] = Some (ROk false)
     <-> is_word s (B "false") \/ is_word s (B "off") \/ is_word s (B "no") \/ s = B "0")
  /\ (forall e, Bool_ (S fuel) (JString s) [] = Some (RErr e) -> e = ErrInvalidJsonBoolean).
Proof.
  intros fuel s. cbn [Bool_]. unfold bool_of_string.
  assert (LW : lower_word (B "true") /\ lower_word (B "on") /\ lower_word (B "yes")
     /\ lower_word (B "false") /\ lower_word (B "off") /\ lower_word (B "no"))
    by (repeat split; repeat (constructor; [vm_compute; split; discriminate|]); constructor).
  destruct LW as (W1 & W2 & W3 & W4 & W5 & W6).
  assert (S1 : bseq s ["1"%byte] = true <-> s = B "1") by (change (B "1") with ["1"%byte]; destruct (bseq_spec s ["1"%byte]); split; intros; congruence).
  assert (S0 : bseq s ["0"%byte] = true <-> s = B "0") by (change (B "0") with ["0"%byte]; destruct (bseq_spec s ["0"%byte]); split; intros; congruence).
  assert (T : (equal_fold s w_true || equal_fold s w_on || equal_fold s w_yes || bseq s ["1"%byte] = true)
     <-> is_word s (B "true") \/ is_word s (B "on") \/ is_word s (B "yes") \/ s = B "1").
  { rewrite !orb_true_iff, S1, <- !equal_fold_spec by assumption. tauto. }
  assert (F : (equal_fold s w_false || equal_fold s w_off || equal_fold s w_no || bseq s ["0"%byte] = true)
     <-> is_word s (B "false") \/ is_word s (B "off") \/ is_word s (B "no") \/ s = B "0").
  { rewrite !orb_true_iff, S0, <- !equal_fold_spec by assumption. tauto. }
  assert (D : forall d, digit d -> forall w, lower_word w -> w <> [] -> ~ is_word [d] w).
  { intros d Hd w Lw Hw H. destruct w as [|c w]; [congruence|]. inversion H as [|a ? s1 ? Sp W E]; subst.
    inversion Lw as [|? ? Lc _]; subst. unfold digit in Hd.
    destruct Sp; simpl in E; injection E; intros; subst; lia || discriminate. }
  assert (X : ~ ((is_word s (B "true") \/ is_word s (B "on") \/ is_word s (B "yes") \/ s = B "1")
     /\ (is_word s (B "false") \/ is_word s (B "off") \/ is_word s (B "no") \/ s = B "0"))).
  { assert (D1 : digit "1"%byte) by (vm_compute; split; discriminate).
    assert (D0 : digit "0"%byte) by (vm_compute; split; discriminate).
    intros [HT HF].
    assert (forall w w', lower_word w -> lower_word w' -> w <> w' -> is_word s w -> is_word s w' -> False) as U
      by (intros w w' A1 A2 A3 A4 A5; apply A3; eapply is_word_fun; eassumption).
    destruct HT as [HT|[HT|[HT|HT]]]; destruct HF as [HF|[HF|[HF|HF]]];
      try (eapply U; [| | |exact HT|exact HF]; try assumption; discriminate);
      try (subst s; eapply D; [| | |exact HF]; try assumption; discriminate);
      try (subst s; eapply D; [| | |exact HT]; try assumption; discriminate).
    subst s. discriminate. }
  destruct (equal_fold s w_true || equal_fold s w_on || equal_fold s w_yes || bseq s ["1"%byte]).
  - assert (T' := proj1 T eq_refl). split; [|split; [|discriminate]].
    + split; [intros _; exact T' | reflexivity].
    + split; [discriminate|]. intros HF. exfalso. apply X. auto.
  - destruct (equal_fold s w_false || equal_fold s w_off || equal_fold s w_no || bseq s ["0"%byte]).
    + assert (F' := proj1 F eq_refl). split; [|split; [|discriminate]].
      * split; [discriminate|]. intros HT. exfalso. apply X. auto.
      * split; [intros _; exact F' | reflexivity].
    + split; [|split].
      * split; [discriminate|]. intros HT. apply T in HT. discriminate.
      * split; [discriminate|]. intros HF. apply F in HF. discriminate.
      * intros e E. congruence.
Qed.

(** Access with the wrong type, or with keys on a scalar, is an error. *)
Theorem C27_wrong_type : forall fuel j,
  (match j with JInt _ | JString _ | JDict _ _ => True | _ => Int_ (S fuel) j [] = Some (RErr ErrUnsupported) end)
  /\ (match j with JInt _ | JFloat _ _ | JString _ | JDict _ _ => True | _ => Float_ (S fuel) j [] = Some (RErr ErrUnsupported) end)
  /\ (match j with JBool _ | JString _ | JDict _ _ => True | _ => Bool_ (S fuel) j [] = Some (RErr ErrUnsupported) end)
  /\ (forall k ks, (forall nid kvs, j <> JDict nid kvs) ->
        Int_ (S fuel) j (k :: ks) = Some (RErr (match j with JInt _ | JString _ => ErrOutOfKeyRange | _ => ErrUnsupported end))
        /\ Float_ (S fuel) j (k :: ks) = Some (RErr (match j with JInt _ | JFloat _ _ | JString _ => ErrOutOfKeyRange | _ => ErrUnsupported end))
        /\ Bool_ (S fuel) j (k :: ks) = Some (RErr (match j with JBool _ | JString _ => ErrOutOfKeyRange | _ => ErrUnsupported end))
        /\ GetString j (k :: ks) = RErr ErrOutOfKeyRange).
Proof.
  intros fuel j. split; [destruct j; try exact I; reflexivity|]. split; [destruct j; try exact I; reflexivity|].
  split; [destruct j; try exact I; reflexivity|]. intros k ks H.
  destruct j; cbn [Int_ Float_ Bool_ GetString]; repeat split; eauto; exfalso; eapply H; reflexivity.
Qed.

(** On a dict the conversions act on what the path leads to. *)
Theorem C27_dict_path : forall fuel nid kvs path v, Get (JDict nid kvs) path = ROk v ->
  (forall n m, v <> JDict n m) ->
  Int_ (S (S fuel)) (JDict nid kvs) path = Int_ (S fuel) v []
  /\ Float_ (S (S fuel)) (JDict nid kvs) path = Float_ (S fuel) v []
  /\ Bool_ (S (S fuel)) (JDict nid kvs) path = Bool_ (S fuel) v []
  /\ (path <> [] -> GetString (JDict nid kvs) path = GetString v []).
Proof.
  intros fuel nid kvs path v H Hv. cbn [Int_ Float_ Bool_]. rewrite H.
  repeat split; try (destruct v; reflexivity). intros Hp. destruct path as [|k ks]; [congruence|].
  cbn [GetString]. rewrite H. destruct v; reflexivity.
Qed.

Theorem C27_dict_path_error : forall fuel nid kvs path e, Get (JDict nid kvs) path = RErr e ->
  Int_ (S fuel) (JDict nid kvs) path = Some (RErr e) /\ Float_ (S fuel) (JDict nid kvs) path = Some (RErr e)
  /\ Bool_ (S fuel) (JDict nid kvs) path = Some (RErr e) /\ GetString (JDict nid kvs) path = RErr e.
Proof.
  intros fuel nid kvs path e H. cbn [Int_ Float_ Bool_]. rewrite H. repeat split.
  destruct path; [discriminate|]. cbn [GetString]. rewrite H. reflexivity.
Qed.

(** But asking a dict (without keys, or with a path that leads to a dict) for
    a number or boolean never returns: the call recurses without end.
    (access.go:382-393, 428-439, 468-479) *)
Theorem C27_dict_conversion_refuted : forall fuel nid kvs path n m, Get (JDict nid kvs) path = ROk (JDict n m) ->
  Int_ fuel (JDict nid kvs) path = None /\ Float_ fuel (JDict nid kvs) path = None /\ Bool_ fuel (JDict nid kvs) path = None.
Proof.
  assert (Z0 : forall fuel n m, Int_ fuel (JDict n m) [] = None /\ Float_ fuel (JDict n m) [] = None /\ Bool_ fuel (JDict n m) [] = None).
  { induction fuel as [|fuel IH]; intros n m; [auto|]. cbn [Int_ Float_ Bool_]. unfold Get, get_with. apply IH. }
  intros fuel nid kvs path n m H. destruct fuel as [|fuel]; [auto|]. cbn [Int_ Float_ Bool_]. rewrite H. apply Z0.
Qed.

(** GetString never fails without keys, and only for a missing path with. *)
Theorem C27_get_string : forall j, exists s, GetString j [] = ROk s /\ (forall t, j = JString t -> s = t)
  /\ ((forall t, j <> JString t) -> (forall n, j <> JPtr n) -> s = String_ j).
Proof.
  intros j. exists (get_string0 j). split; [reflexivity|]. split.
  - intros t ->. reflexivity.
  - intros H1 H2. destruct j; try reflexivity; exfalso; [eapply H1 | eapply H2]; reflexivity.
Qed.

Example bool_example : Bool_ 1 (JString (B "oN")) [] = Some (ROk true)
  /\ Bool_ 1 (JString (B "ye" ++ [xc5; xbf])) [] = Some (ROk true)
  /\ Bool_ 1 (JString (B "2")) [] = Some (RErr ErrInvalidJsonBoolean)
  /\ Int_ 1 (JString (B "9223372036854775808")) [] = Some (RErr ErrInvalidJsonInt)
  /\ Float_ 1 (JInt 9007199254740993) [] = Some (ROk (FFin false (2 ^ 52) 1)).
Proof. repeat split; vm_compute; reflexivity. Qed.

(** * C28 *)

(** For every text and every position an error excerpt is built without
    indexing out of range; the position is clamped into the text; the excerpt
    shows the (up to) ten bytes before it, a caret, and the (up to) ten bytes
    from it on. *)
Theorem C28_json_error : forall str pos,
  (str = [] -> NewJSONError str pos = Some (0, []))
  /\ (str <> [] -> exists pre post p,
        str = pre ++ post /\ Z.of_nat (length pre) = p
        /\ p = Z.max 0 (Z.min pos (Z.of_nat (length str) - 1))
        /\ NewJSONError str pos = Some (p, skipn (length pre - 10) pre ++ ["^"%byte] ++ firstn 10 post)).
Proof.
  intros str pos. split; [intros ->; reflexivity|]. intros H. rewrite (json_error_spec str pos H). cbv zeta.
  set (p := Z.to_nat (Z.max 0 (Z.min pos (Z.of_nat (length str) - 1)))).
  assert (L : (0 < length str)%nat) by (destruct str; [congruence | simpl; lia]).
  assert (Hp : (p < length str)%nat) by (unfold p; lia).
  assert (Hl : length (firstn p str) = p) by (rewrite firstn_length; lia).
  exists (firstn p str), (skipn p str), (Z.of_nat p). rewrite Hl.
  split; [symmetry; apply firstn_skipn|]. split; [reflexivity|]. split; [unfold p; lia|]. reflexivity.
Qed.

Theorem C28_never_out_of_range : forall str pos, NewJSONError str pos <> None.
Proof.
  intros str pos. destruct (C28_json_error str pos) as [H1 H2]. destruct str as [|c str].
  - rewrite H1 by reflexivity. discriminate.
  - destruct H2 as (pre & post & p & _ & _ & _ & ->); discriminate.
Qed.

Example error_example : NewJSONError (B "{""abcdefgh"": 12x4}") (-7) = Some (0, B "^{""abcdefgh")
  /\ NewJSONError (B "{""abcdefgh"": 12x4}") 15 = Some (15, B "defgh"": 12^x4}").
Proof. split; vm_compute; reflexivity. Qed.

(** * C35 *)

(** US amounts lose their commas, and nothing else. *)
Theorem C35_us : forall matchUS matchEU s, matchUS s = true ->
  normalize_currency matchUS matchEU s = filter (fun b => negb (beq b ","%byte)) s.
Proof. intros mu me s H. unfold normalize_currency. rewrite H. apply delete_byte_filter. Qed.

(** EU amounts lose the dots before the first comma, which becomes the
    decimal point; what is behind it stays. *)
Theorem C35_eu : forall matchUS matchEU s, matchUS s = false -> matchEU s = true ->
  (forall a b, s = a ++ ","%byte :: b -> ~ In ","%byte a ->
     normalize_currency matchUS matchEU s = filter (fun c => negb (beq c "."%byte)) a ++ "."%byte :: b)
  /\ (~ In ","%byte s -> normalize_currency matchUS matchEU s = filter (fun c => negb (beq c "."%byte)) s).
Proof.
  intros mu me s H1 H2. unfold normalize_currency. rewrite H1, H2. unfold normalize_eu. cbv zeta.
  pose proof (index_byte_spec s ","%byte) as [I L]. split.
  - intros a b E N.
    assert (index_byte s ","%byte = Z.of_nat (length a)) as ->.
    { rewrite E. apply index_byte_first. exact N. }
    rewrite (proj2 (Z.leb_le 0 (Z.of_nat (length a)))) by lia. rewrite E.
    rewrite Nat2Z.id, firstn_app, firstn_all, Nat.sub_diag. cbn [firstn]. rewrite app_nil_r.
    rewrite skipn_app, skipn_all2 by lia. replace (length a + 1 - length a)%nat with 1%nat by lia. cbn [skipn app].
    rewrite delete_byte_filter. reflexivity.
  - intros N. destruct (Z.leb_spec 0 (index_byte s ","%byte)) as [H|H]; [|apply delete_byte_filter].
    exfalso. apply N. destruct (index_byte s ","%byte) eqn:X; [| |lia];
      destruct I as (a & b & -> & _); apply in_or_app; right; left; reflexivity.
Qed.

(** Everything else is unchanged, and so is anything without commas and dots
    (a plain integer), whatever the expressions match. *)
Theorem C35_other : forall matchUS matchEU s,
  (matchUS s = false -> matchEU s = false -> normalize_currency matchUS matchEU s = s)
  /\ (~ In ","%byte s -> ~ In "."%byte s -> normalize_currency matchUS matchEU s = s).
Proof.
  intros mu me s. split; [intros H1 H2; unfold normalize_currency; rewrite H1, H2; reflexivity|].
  intros N1 N2.
  assert (F : forall c, ~ In c s -> filter (fun b => negb (beq b c)) s = s).
  { intros c Hc. clear -Hc. induction s as [|x s IH]; simpl; [reflexivity|].
    destruct (beq_spec x c) as [->|_]; [exfalso; apply Hc; left; reflexivity|]. simpl. f_equal. apply IH.
    intros X; apply Hc; right; exact X. }
  destruct (mu s) eqn:E1; [rewrite C35_us by exact E1; apply F; exact N1|].
  destruct (me s) eqn:E2; [|unfold normalize_currency; rewrite E1, E2; reflexivity].
  destruct (C35_eu mu me s E1 E2) as [_ H]. rewrite H by exact N1. apply F. exact N2.
Qed.

Theorem C35_integers : forall matchUS matchEU z,
  normalize_currency matchUS matchEU (format_int z) = format_int z.
Proof.
  intros mu me z. apply C35_other; intros H.
  all: unfold format_int in H.
  all: assert (D : forall n c, In c (format_uint n) -> is_digit c = true) by
    (intros n c Hc; unfold format_uint in Hc; revert Hc; generalize (S (Z.to_nat (Z.log2 n))); intros fuel;
     assert (G : forall fuel n acc, (forall x, In x acc -> is_digit x = true) -> forall x, In x (fmt_digits fuel n acc) -> is_digit x = true);
     [clear; induction fuel as [|fuel IH]; intros n acc Hacc x Hx; cbn [fmt_digits] in Hx; [apply Hacc; exact Hx|];
      cbv zeta in Hx; assert (Hd : is_digit (digit_byte (n mod 10)) = true) by (apply digit_byte_is_digit; apply Z.mod_pos_bound; lia);
      assert (Hacc' : forall y, In y (digit_byte (n mod 10) :: acc) -> is_digit y = true) by (intros y [<-|Hy]; [exact Hd | apply Hacc; exact Hy]);
      destruct (n <? 10); [apply Hacc'; exact Hx | eapply IH; eassumption]
     | apply G; intros x []]).
  all: destruct (z <? 0); [destruct H as [H|H]; [discriminate|]|]; apply D in H; discriminate.
Qed.

Example currency_example : normalize_currency (fun _ => true) (fun _ => true) (B "1,234,567.89") = B "1234567.89"
  /\ normalize_currency (fun _ => false) (fun _ => true) (B "1.234.567,89") = B "1234567.89".
Proof. split; vm_compute; reflexivity. Qed.

(** * C37 *)

Lemma dict_get1 nid kvs k : Get (JDict nid kvs) [k] = match lookup k kvs with Some v => ROk v | None => RErr ErrJsonDictKeyNotFound end.
Proof. unfold Get, get_with. cbn [get_loop]. rewrite lookup_sm_get. reflexivity. Qed.

Lemma prefix_loop_spec nid kvs prefix : forall fuel a,
  (exists l, prefix_loop fuel (JDict nid kvs) prefix a = Some l
     /\ (forall i v, nth_error l i = Some v -> v <> JNull /\ lookup (prefix ++ ["."%byte] ++ idx_key (a + i)) kvs = Some v)
     /\ (lookup (prefix ++ ["."%byte] ++ idx_key (a + length l)) kvs = None
         \/ lookup (prefix ++ ["."%byte] ++ idx_key (a + length l)) kvs = Some JNull))
  \/ (prefix_loop fuel (JDict nid kvs) prefix a = None
     /\ forall i, (a <= i < a + fuel)%nat -> lookup (prefix ++ ["."%byte] ++ idx_key i) kvs <> None).
Proof.
  induction fuel as [|fuel IH]; intros a; cbn [prefix_loop].
  - right. split; [reflexivity|]. intros; lia.
  - rewrite dict_get1. destruct (lookup (prefix ++ ["."%byte] ++ idx_key a) kvs) as [v|] eqn:E.
    + destruct (IH (S a)) as [(l & -> & H1 & H2)|[-> H]].
      * assert (C : v = JNull \/ v <> JNull) by (destruct v; auto; right; discriminate). left.
        destruct C as [->|N].
        { exists []. split; [reflexivity|]. split; [intros [|i] w X; discriminate|]. cbn [length]. rewrite Nat.add_0_r. auto. }
        exists (v :: l). split; [destruct v; congruence|]. split.
        -- intros [|i] w X; simpl in X.
           ++ injection X as <-. rewrite Nat.add_0_r. auto.
           ++ apply H1 in X. replace (a + S i)%nat with (S a + i)%nat by lia. exact X.
        -- cbn [length]. replace (a + S (length l))%nat with (S a + length l)%nat by lia. exact H2.
      * assert (C : v = JNull \/ v <> JNull) by (destruct v; auto; right; discriminate). destruct C as [->|N].
        { left. exists []. split; [reflexivity|]. split; [intros [|i] w X; discriminate|]. cbn [length]. rewrite Nat.add_0_r. auto. }
        right. split; [destruct v; congruence|]. intros i Hi. destruct (Nat.eq_dec i a) as [->|Ni]; [congruence|].
        apply H. lia.
    + left. exists []. split; [reflexivity|]. split; [intros [|i] v X; discriminate|]. cbn [length]. rewrite Nat.add_0_r. auto.
Qed.

(** GetArrayOfPrefix returns, and its result is the longest run of non-null
    members prefix.0, prefix.1, ... *)
Theorem C37_array_of_prefix : forall nid kvs prefix fuel, (length kvs < fuel)%nat ->
  exists l, GetArrayOfPrefix fuel (JDict nid kvs) prefix = Some l
    /\ (forall i v, nth_error l i = Some v ->
          v <> JNull /\ fm_of (JDict nid kvs) (prefix ++ ["."%byte] ++ format_int (Z.of_nat i)) = Some v)
    /\ (fm_of (JDict nid kvs) (prefix ++ ["."%byte] ++ format_int (Z.of_nat (length l))) = None
        \/ fm_of (JDict nid kvs) (prefix ++ ["."%byte] ++ format_int (Z.of_nat (length l))) = Some JNull).
Proof.
  intros nid kvs prefix fuel Hf. unfold GetArrayOfPrefix. cbn [fm_of].
  destruct (prefix_loop_spec nid kvs prefix fuel 0) as [(l & -> & H1 & H2)|[_ H]]; [exists l; auto|].
  exfalso. assert (fuel <= length kvs)%nat; [|lia].
  apply (numbered_bound kvs (fun i => prefix ++ ["."%byte] ++ idx_key i) 0 fuel).
  - intros i k X. apply app_inv_head in X. injection X as X. apply idx_key_inj. exact X.
  - intros i Hi. apply H. lia.
Qed.

Theorem C37_array_of_prefix_other : forall j prefix fuel, (forall nid kvs, j <> JDict nid kvs) ->
  GetArrayOfPrefix (S fuel) j prefix = Some [].
Proof. intros j prefix fuel H. destruct j; try reflexivity. exfalso; eapply H; reflexivity. Qed.

Lemma qsa_loop_spec nid kvs : forall fuel a,
  (exists l, qsa_loop fuel (JDict nid kvs) a = Some l
     /\ (forall i t, nth_error l i = Some t -> exists v, lookup (idx_key (a + i)) kvs = Some v /\ GetString v [] = ROk t)
     /\ lookup (idx_key (a + length l)) kvs = None)
  \/ (qsa_loop fuel (JDict nid kvs) a = None
     /\ forall i, (a <= i < a + fuel)%nat -> lookup (idx_key i) kvs <> None).
Proof.
  induction fuel as [|fuel IH]; intros a; cbn [qsa_loop].
  - right. split; [reflexivity|]. intros; lia.
  - cbn [GetString]. rewrite dict_get1. destruct (lookup (idx_key a) kvs) as [v|] eqn:E; cbn [rbind].
    + destruct (IH (S a)) as [(l & -> & H1 & H2)|[-> H]].
      * left. exists (get_string0 v :: l). split; [reflexivity|]. split.
        -- intros [|i] w X; simpl in X.
           ++ injection X as <-. rewrite Nat.add_0_r. exists v. auto.
           ++ apply H1 in X. replace (a + S i)%nat with (S a + i)%nat by lia. exact X.
        -- cbn [length]. replace (a + S (length l))%nat with (S a + length l)%nat by lia. exact H2.
      * right. split; [reflexivity|]. intros i Hi. destruct (Nat.eq_dec i a) as [->|Ni]; [congruence|].
        apply H. lia.
    + left. exists []. split; [reflexivity|]. split; [intros [|i] v X; discriminate|]. cbn [length]. rewrite Nat.add_0_r. auto.
Qed.

(** GetQueryStringArray returns the strings of an array, a single string, or
    the numbered members 0, 1, ... of a dict; otherwise nothing. *)
Theorem C37_query_string_array : forall nid kvs key fuel,
  (forall n sub, fm_of (JDict nid kvs) key = Some (JDict n sub) -> (length sub < fuel)%nat) ->
  exists r, GetQueryStringArray fuel (JDict nid kvs) key = Some r
    /\ match fm_of (JDict nid kvs) key with
       | Some (JArray l) => exists ts, r = Some ts /\ Forall2 (fun v t => GetString v [] = ROk t) l ts
       | Some (JString s) => r = Some [s]
       | Some (JDict n sub) => exists ts, r = Some ts
           /\ (forall i t, nth_error ts i = Some t ->
                 exists v, lookup (format_int (Z.of_nat i)) sub = Some v /\ GetString v [] = ROk t)
           /\ lookup (format_int (Z.of_nat (length ts))) sub = None
       | _ => r = None
       end.
Proof.
  intros nid kvs key fuel Hf. unfold GetQueryStringArray. rewrite dict_get1. cbn [fm_of] in *.
  destruct (lookup key kvs) as [v|] eqn:E; [|exists None; auto].
  destruct v as [|b|z|f bit|s|l|n sub|n]; try (exists None; auto; fail).
  - exists (Some [s]). auto.
  - exists (Some (string_array l)). split; [reflexivity|]. exists (string_array l). split; [reflexivity|].
    clear. unfold string_array. induction l as [|v l IH]; constructor; [reflexivity | exact IH].
  - specialize (Hf n sub eq_refl). destruct (qsa_loop_spec n sub fuel 0) as [(l & -> & H1 & H2)|[_ H]].
    + exists (Some l). split; [reflexivity|]. exists l. auto.
    + exfalso. assert (fuel <= length sub)%nat; [|lia].
      apply (numbered_bound sub idx_key 0 fuel); [exact idx_key_inj|]. intros i Hi. apply H. lia.
Qed.

(** CheckRequiredFields succeeds exactly on a dict in which all fields exist
    and none of them is null. *)
Theorem C37_required_fields : forall j fields,
  CheckRequiredFields j fields = None
  <-> exists nid kvs, j = JDict nid kvs /\ forall f, In f fields -> exists v, fm_of j f = Some v /\ v <> JNull.
Proof.
  intros j fields. unfold CheckRequiredFields. destruct j as [| | | | | |nid kvs|];
    try (cbn [GetMap]; split; [discriminate | intros (n & m & X & _); discriminate]).
  change (GetMap (JDict nid kvs) []) with (@ROk (list (bytes * json)) kvs). cbv iota. cbn [fm_of].
  split.
  - intros H. exists nid, kvs. split; [reflexivity|]. revert H.
    induction fields as [|f fs IH]; cbn [check_fields]; intros H g Hg; [destruct Hg|].
    rewrite <- lookup_sm_get in H. destruct (lookup f kvs) as [v|] eqn:E; [|discriminate].
    destruct Hg as [<-|Hg].
    + exists v. split; [exact E|]. destruct v; discriminate.
    + apply IH; [|exact Hg]. destruct v; congruence.
  - intros (n & m & _ & H). induction fields as [|f fs IH]; cbn [check_fields]; [reflexivity|].
    destruct (H f (or_introl eq_refl)) as (v & E & N). rewrite <- lookup_sm_get, E.
    assert (IH' := IH (fun g Hg => H g (or_intror Hg))). destruct v; congruence.
Qed.

(** Otherwise the first offending field decides which error it is. *)
Theorem C37_required_field_missing : forall nid kvs a f b,
  (forall g, In g a -> exists v, fm_of (JDict nid kvs) g = Some v /\ v <> JNull) ->
  (fm_of (JDict nid kvs) f = None -> CheckRequiredFields (JDict nid kvs) (a ++ f :: b) = Some ErrMissingInputField)
  /\ (fm_of (JDict nid kvs) f = Some JNull -> CheckRequiredFields (JDict nid kvs) (a ++ f :: b) = Some ErrNilInputField).
Proof.
  intros nid kvs a f b. unfold CheckRequiredFields. change (GetMap (JDict nid kvs) []) with (@ROk (list (bytes * json)) kvs). cbv iota. cbn [fm_of].
  induction a as [|g a IH]; intros H; cbn [app check_fields].
  - rewrite <- lookup_sm_get. split; intros ->; reflexivity.
  - destruct (H g (or_introl eq_refl)) as (v & E & N). rewrite <- lookup_sm_get, E. specialize (IH (fun x Hx => H x (or_intror Hx))). destruct v; try exact IH. congruence.
Qed.
Theorem C37_required_no_dict : forall j fields, (forall nid kvs, j <> JDict nid kvs) -> CheckRequiredFields j fields = Some ErrUnsupported.
Proof. intros j fields H. destruct j; try reflexivity. exfalso. eapply H. reflexivity. Qed.

(** GetAnyString: the first key with a non-empty string. *)
Theorem C37_any_string : forall j keys,
  (exists a k b s, keys = a ++ k :: b /\ GetAnyString2 j keys = (s, k) /\ s <> [] /\ GetString j [k] = ROk s
     /\ forall k', In k' a -> forall t, GetString j [k'] = ROk t -> t = [])
  \/ (GetAnyString2 j keys = ([], []) /\ forall k', In k' keys -> forall t, GetString j [k'] = ROk t -> t = []).
Proof.
  intros j keys. induction keys as [|k keys IH]; cbn [GetAnyString2].
  - right. split; [reflexivity | intros k' []].
  - destruct (GetString j [k]) as [s|e] eqn:E; cbv zeta.
    + destruct s as [|c s]; cbn [length].
      * change (Nat.ltb 0 0) with false. cbv iota. destruct IH as [(a & k1 & b & s & -> & H1 & H2 & H3 & H4)|[H1 H2]].
        -- left. exists (k :: a), k1, b, s. repeat split; auto. intros k' [<-|Hk] t X; [congruence | eapply H4; eassumption].
        -- right. split; [exact H1|]. intros k' [<-|Hk] t X; [congruence | eapply H2; eassumption].
      * change (Nat.ltb 0 (S (length s))) with true. cbv iota. left. exists [], k, keys, (c :: s).
        repeat split; try discriminate; auto. intros k' [].
    + cbn [length]. change (Nat.ltb 0 0) with false. cbv iota. destruct IH as [(a & k1 & b & s & -> & H1 & H2 & H3 & H4)|[H1 H2]].
      * left. exists (k :: a), k1, b, s. repeat split; auto. intros k' [<-|Hk] t X; [congruence | eapply H4; eassumption].
      * right. split; [exact H1|]. intros k' [<-|Hk] t X; [congruence | eapply H2; eassumption].
Qed.

Example helpers_example :
  let d := JDict 0 [(B "p.0", JInt 1); (B "p.1", JInt 2); (B "p.2", JNull); (B "p.3", JInt 4);
                    (B "q", JDict 0 [(B "0", JString (B "x")); (B "1", JInt 5)])] in
  GetArrayOfPrefix 6 d (B "p") = Some [JInt 1; JInt 2]
  /\ GetQueryStringArray 3 d (B "q") = Some (Some [B "x"; B "5"])
  /\ CheckRequiredFields d [B "q"; B "p.2"] = Some ErrNilInputField
  /\ GetAnyString d [B "z"; B "p.3"; B "p.0"] = B "4".
Proof. repeat split; vm_compute; reflexivity. Qed.

Print Assumptions C27_string_float.
Print Assumptions C27_string_bool.
Print Assumptions C28_json_error.
Print Assumptions C35_eu.
Print Assumptions C37_array_of_prefix.
