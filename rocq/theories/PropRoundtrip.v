(** Properties of serialisation and of the serialise/parse round trip:
    C01, C02, C03, C08, C09, C38, C39. *)
From Coq Require Import QArith Qpower Sorting.Sorted.
From Verif Require Import Base Strconv SpecFloat StrconvFacts RoundFacts FloatText RoundUnique SortedMap SortedMapFacts
  Json SpecJson SpecRFC SpecText SpecPrint Printer Parser ParserFacts Gram RfcFacts PrintFacts PrintFacts2
  TextFacts TruncFacts StreamFacts ParseInv.
Open Scope Z_scope.

(** ** Concrete values used to show that hypotheses can be met *)

(** Decide statements about all sub-values of a literal value. *)
Ltac subs H :=
  repeat match goal with
  | X : subvalue _ (JArray _) |- _ => inversion X; clear X; subst
  | X : subvalue _ (JDict _ _) |- _ => inversion X; clear X; subst
  | X : subvalue _ JNull |- _ => inversion X; clear X; subst
  | X : subvalue _ (JBool _) |- _ => inversion X; clear X; subst
  | X : subvalue _ (JInt _) |- _ => inversion X; clear X; subst
  | X : subvalue _ (JFloat _ _) |- _ => inversion X; clear X; subst
  | X : subvalue _ (JString _) |- _ => inversion X; clear X; subst
  | X : subvalue _ (JPtr _) |- _ => inversion X; clear X; subst
  | X : In _ (_ :: _) |- _ => destruct X as [X|X]; [try (injection X; clear X; intros); subst|]
  | X : In _ [] |- _ => destruct X
  end.

(** 0.1 as a float64 *)
Definition tenth : fl := FFin false 7205759403792794 (-56).
(** 2^60 as a float64 *)
Definition two60 : fl := FFin false (2 ^ 52) 8.

Lemma not_integral m e : e < 0 -> m mod 2 ^ (- e) <> 0 -> ~ small_integral m e.
Proof.
  intros He Hm [[n Hn] _]. apply Hm. unfold fq in Hn.
  assert ((inject_Z m == inject_Z n * inject_Z (2 ^ (- e)))%Q) as E.
  { assert (e = - - e) as Ee by lia.
    rewrite <- Hn, <- Qmult_assoc.
    assert ((Qpower 2 e * inject_Z (2 ^ (- e)) == 1)%Q) as P.
    { rewrite <- qpow2_Z by lia.
      rewrite <- Qpower_plus by discriminate. replace (e + - e) with 0 by lia. reflexivity. }
    rewrite P. rewrite Qmult_1_r. reflexivity. }
  rewrite <- inject_Z_mult in E. apply (proj1 (inject_Z_injective _ _)) in E. subst m.
  apply Z.mod_mul. lia.
Qed.

Lemma tenth_not_integral : ~ small_integral 7205759403792794 (-56).
Proof. apply not_integral; [reflexivity | vm_compute; discriminate]. Qed.

(** A dict with node id 7 and members a (an array), b, c (a reference); its text is C01_sample_text. *)
Definition sample : json :=
  JDict 7 [ (["a"%byte],
              JArray [JInt (-5); JString ["x"; """"; "y"]%byte; JNull; JBool true; JFloat tenth 0]);
            (["b"%byte], JDict 0 []);
            (["c"%byte], JPtr 7) ].

(** The same without node ids and references. *)
Definition plain_sample : json :=
  JDict 0 [ (["a"%byte], JArray [JInt (-5); JString ["x"; """"; "y"; x01]%byte; JNull; JBool true; JFloat tenth 0]);
            (["b"%byte], JDict 0 [(["k"%byte], JFloat two60 0)]) ].

Ltac json_ok_tac :=
  repeat first [ progress constructor | reflexivity
               | match goal with |- blt _ _ => reflexivity end ].

Example sample_ok : json_ok sample. Proof. unfold sample. json_ok_tac. Qed.
Example plain_sample_ok : json_ok plain_sample. Proof. unfold plain_sample. json_ok_tac. Qed.

Example sample_printable : printable sample.
Proof.
  split; [exact sample_ok|]. split; [|split].
  - intros f bit H. unfold sample in H. subs H; discriminate.
  - intros nid kvs H. unfold sample in H. subs H; vm_compute; intuition discriminate.
  - unfold distinct_ids. vm_compute. repeat constructor. intros [].
Qed.

Example sample_stable : text_stable sample.
Proof.
  split.
  - intros f bit H. unfold sample in H. subs H. split; [reflexivity|].
    intros neg m e E. injection E as <- <- <-. split; [reflexivity | exact tenth_not_integral].
  - intros nid kvs H. unfold sample in H. subs H; discriminate || lia.
Qed.

Example plain_sample_printable : printable plain_sample.
Proof.
  split; [exact plain_sample_ok|]. split; [|split].
  - intros f bit H. unfold plain_sample in H. subs H; discriminate.
  - intros nid kvs H. unfold plain_sample in H. subs H; vm_compute; intuition discriminate.
  - unfold distinct_ids. vm_compute. constructor.
Qed.

Example plain_sample_plain : plain_json plain_sample.
Proof.
  split; [|split].
  - intros f bit H. unfold plain_sample in H. subs H; unfold tenth, two60; eauto.
  - intros n H. unfold plain_sample in H. subs H.
  - intros nid kvs H. unfold plain_sample in H. subs H; lia.
Qed.

(** ** C01: serialise, then parse *)

Lemma parse_of_suffix s v : parse_suffix s = POk v [] -> Parse s = SOk v (length s).
Proof. intros H. unfold Parse, ParseStream. simpl. rewrite H. f_equal. simpl. lia. Qed.

Lemma parse_suffix_of s v o : Parse s = SOk v o -> exists r, parse_suffix s = POk v r.
Proof.
  unfold Parse, ParseStream. simpl. destruct (parse_suffix s); try discriminate.
  intros H; injection H as <- <-. eauto.
Qed.

Theorem C01_roundtrip v : printable v ->
  exists v', Parse (String_ v) = SOk v' (length (String_ v)) /\ reads_as v v'.
Proof.
  intros (Ho & Hf & Hk & Hd). destruct (print_parse_suffix v Ho Hf Hk Hd) as (v' & Hr & Hp).
  exists v'. split; [apply parse_of_suffix; exact Hp | exact Hr].
Qed.

Theorem C01_roundtrip_exact v : printable v -> text_stable v ->
  Parse (String_ v) = SOk v (length (String_ v)).
Proof.
  intros Hp Hs. destruct (C01_roundtrip v Hp) as (v' & H & Hr).
  rewrite (reads_as_stable v Hs v' Hr) in H. exact H.
Qed.

(** Whatever text was accepted: printing the result and parsing again gives
    the result back (up to [reads_as]), and from then on exactly. *)
Theorem C01_parse_print_parse s v o : Parse s = SOk v o ->
  exists v', Parse (String_ v) = SOk v' (length (String_ v)) /\ reads_as v v'
    /\ Parse (String_ v') = SOk v' (length (String_ v')).
Proof.
  intros H. destruct (parse_suffix_of _ _ _ H) as [r Hr].
  destruct (C01_roundtrip v (parse_printable _ _ _ Hr)) as (v' & Hp & Ha).
  exists v'. split; [exact Hp|]. split; [exact Ha|].
  destruct (parse_suffix_of _ _ _ Hp) as [r' Hr'].
  apply C01_roundtrip_exact; [eapply parse_printable; exact Hr' | eapply reads_as_result_stable; exact Ha].
Qed.

(** An integral float below 2^53 comes back as exactly that integer. *)
Theorem C01_small_integral_float neg m e bit n v' : 0 < m -> 0 < n < 2 ^ 53 ->
  (fq m e == inject_Z n)%Q -> reads_as (JFloat (FFin neg m e) bit) v' -> v' = JInt (if neg then - n else n).
Proof.
  intros Hm Hn E H. inversion H; subst; clear H.
  - exfalso. match goal with X : ~ small_integral _ _ |- _ => apply X end. split; [eauto|].
    rewrite E. rewrite <- Zlt_Qlt. lia.
  - lia.
  - match goal with X : correctly_rounded _ _ _ _ |- _ => rename X into R end.
    assert (z = n) as ->; [|reflexivity].
    destruct (Z_le_gt_dec z (2 ^ 53)) as [Hz|Hz].
    + destruct (small_int_canon z ltac:(lia)) as (m2 & e2 & Hc2 & Hq2).
      pose proof (rounded_exact _ _ _ _ _ _ R Hc2 Hq2) as E2.
      rewrite E in E2. apply (proj1 (inject_Z_injective _ _)) in E2. congruence.
    + exfalso. destruct (small_int_canon (2 ^ 53) ltac:(lia)) as (m2 & e2 & Hc2 & Hq2).
      assert ((fq m e < fq m2 e2)%Q) as L.
      { rewrite E, <- Hq2. rewrite <- Zlt_Qlt. lia. }
      pose proof (rounded_below _ _ _ _ _ _ R Hc2 L) as L2.
      rewrite <- Hq2 in L2. rewrite <- Zlt_Qlt in L2. lia.
Qed.

(** The hypotheses can be met, and the exact text and offset. *)
Example C01_sample_text : String_ sample =
  B "{""___jnid_"":7,""a"":[-5,""x\""y"",null,true,0.1],""b"":{},""c"":<7>}".
Proof. vm_compute. reflexivity. Qed.
Example C01_sample : Parse (String_ sample) = SOk sample (length (String_ sample)).
Proof. exact (C01_roundtrip_exact sample sample_printable sample_stable). Qed.

(** Why the exclusions are there: each of them fails outside. *)

(** a float32-tagged float reads back as another float64 (0.1f) *)
Theorem C01_float32_refuted : exists f v', json_ok (JFloat f 32)
  /\ Parse (String_ (JFloat f 32)) = SOk v' 3 /\ ~ reads_as (JFloat f 32) v'.
Proof.
  exists (FFin false 7205759511166976 (-56)), (JFloat tenth 0). repeat split.
  - constructor. reflexivity.
  - intros H. inversion H.
Qed.

(** the reserved member name disappears *)
Theorem C01_reserved_refuted : exists v v', json_ok v
  /\ Parse (String_ v) = SOk v' (length (String_ v)) /\ ~ reads_as v v'.
Proof.
  exists (JDict 0 [(jnid_key, JInt 5)]), (JDict 5 []). split; [json_ok_tac|]. split; [reflexivity|].
  intros H. inversion H.
Qed.

(** two dicts with one node id make the parser panic *)
Theorem C01_duplicate_id_refuted : exists v, json_ok v /\ Parse (String_ v) = SPanic PDuplicateNode.
Proof. exists (JArray [JDict 1 []; JDict 1 []]). split; [json_ok_tac | reflexivity]. Qed.

(** integral floats change type; from 2^53 on possibly also the integer read *)
Theorem C01_integral_float_refuted : exists v, printable v /\ Parse (String_ v) <> SOk v (length (String_ v))
  /\ Parse (String_ v) = SOk (JInt 1152921504606847000) 19 /\ 1152921504606847000 <> 2 ^ 60
  /\ v = JFloat two60 0.
Proof.
  exists (JFloat two60 0). split; [|split; [vm_compute; discriminate | repeat split; discriminate]].
  split; [constructor; reflexivity|]. split; [|split].
  - intros f bit H. subs H. discriminate.
  - intros nid kvs H. subs H.
  - constructor.
Qed.

(** ** C02: equal text, equal content *)

Theorem C02_injective v w : printable v -> printable w -> String_ v = String_ w ->
  exists u, reads_as v u /\ reads_as w u.
Proof.
  intros Hv Hw E. destruct (C01_roundtrip v Hv) as (v' & P1 & R1).
  destruct (C01_roundtrip w Hw) as (w' & P2 & R2). rewrite E in P1. rewrite P1 in P2.
  injection P2 as ->. eauto.
Qed.

Theorem C02_injective_exact v w : printable v -> printable w -> text_stable v -> text_stable w ->
  String_ v = String_ w -> v = w.
Proof.
  intros Hv Hw Sv Sw E. destruct (C02_injective v w Hv Hw E) as (u & R1 & R2).
  rewrite <- (reads_as_stable v Sv u R1). apply (reads_as_stable w Sw u R2).
Qed.

(** Equality of texts is not finer than equality of values: stated for
    completeness, String is a function of the content only. *)
Example C02_sample : String_ sample <> String_ plain_sample.
Proof. vm_compute. discriminate. Qed.

(** ** C03: the text is RFC 8259 JSON denoting the value *)

Theorem C03_rfc_text v : json_ok v -> only_float64 v -> plain_json v ->
  exists v', rfc_text (fun _ => True) (String_ v) v' /\ reads_as v v'.
Proof.
  intros Ho Hf Hp. destruct (print_rfc (fun _ => True) v Ho Hf Hp) as (v' & H & R).
  { intros nid kvs k _ _. exact I. }
  exists v'. split; [|exact R]. unfold String_.
  replace (build_string v) with ([] ++ build_string v ++ []) by (simpl; apply app_nil_r).
  constructor; [constructor | exact H | constructor].
Qed.

Theorem C03_rfc_text_exact v : json_ok v -> plain_json v -> text_stable v ->
  rfc_text (fun _ => True) (String_ v) v.
Proof.
  intros Ho Hp Hs. destruct (C03_rfc_text v Ho) as (v' & H & R); [|exact Hp|].
  - intros f bit Hsub. destruct (proj1 Hs f bit Hsub) as [-> _]. discriminate.
  - rewrite (reads_as_stable v Hs v' R) in H. exact H.
Qed.

Example C03_sample : exists v', rfc_text (fun _ => True) (String_ plain_sample) v' /\ reads_as plain_sample v'.
Proof.
  apply C03_rfc_text; [exact plain_sample_ok | exact (proj1 (proj2 plain_sample_printable)) | exact plain_sample_plain].
Qed.

(** Outside: NaN is printed as NaN, a reference as <n>; neither is JSON. *)
Theorem C03_nan_refuted : exists v, json_ok v /\ only_float64 v /\ forall v', ~ rfc_text not_reserved (String_ v) v'.
Proof.
  exists (JFloat FNaN 0). split; [constructor; reflexivity|]. split; [intros f bit H; subs H; discriminate|].
  intros v' H. destruct (rfc_text_parse _ _ H) as (r & P & _). vm_compute in P. injection P as <- _.
  inversion H as [w1 t w2 v Hw1 Hv Hw2 E]; subst. inversion Hv; subst.
  match goal with X : number_value _ _ _ _ _ |- _ => inversion X end.
Qed.

(** ** C08: PrettyString *)

Theorem C08_pretty v : json_ok v -> only_float64 v -> no_reserved_key v -> plain_keys v ->
  exists v', Parse (PrettyString v) = SOk v' (length (PrettyString v)) /\ reads_as (strip_ids v) v'.
Proof.
  intros Ho Hf Hk Hp. destruct (pretty_parse_suffix v Ho Hf Hk Hp) as (v' & R & P).
  exists v'. split; [apply parse_of_suffix; exact P | exact R].
Qed.

(** Same result as String() when there are no node ids. *)
Theorem C08_pretty_same v : printable v -> plain_keys v -> text_stable v -> strip_ids v = v ->
  exists o o', Parse (PrettyString v) = SOk v o /\ Parse (String_ v) = SOk v o'.
Proof.
  intros Hv Hp Hs E. destruct Hv as (Ho & Hf & Hk & Hd).
  destruct (C08_pretty v Ho Hf Hk Hp) as (v' & P & R). rewrite E in R.
  rewrite (reads_as_stable v Hs v' R) in P. do 2 eexists. split; [exact P|].
  apply C01_roundtrip_exact; [repeat split; assumption | exact Hs].
Qed.

Example C08_sample : plain_keys plain_sample /\ strip_ids plain_sample = plain_sample.
Proof.
  split; [|reflexivity]. intros nid kvs k H Hk. unfold plain_sample in H.
  subs H; cbn [map fst] in Hk; subs Hk; vm_compute; intuition discriminate.
Qed.

(** A quote in a key: the text is not even accepted; a backslash: another key. *)
Theorem C08_key_refuted : (exists v e o, printable v /\ Parse (PrettyString v) = SErr e o)
  /\ (exists v v' o, printable v /\ Parse (PrettyString v) = SOk v' o /\ ~ reads_as (strip_ids v) v').
Proof.
  split.
  - exists (JDict 0 [([""""%byte], JNull)]). do 2 eexists. split; [|vm_compute; reflexivity].
    split; [json_ok_tac|]. split; [|split].
    + intros f bit H. subs H.
    + intros nid kvs H. subs H. vm_compute. intuition discriminate.
    + constructor.
  - exists (JDict 0 [(["\"; "n"]%byte, JNull)]), (JDict 0 [([x0a], JNull)]). eexists.
    split; [|split; [vm_compute; reflexivity|]].
    + split; [json_ok_tac|]. split; [|split].
      * intros f bit H. subs H.
      * intros nid kvs H. subs H. vm_compute. intuition discriminate.
      * constructor.
    + intros H. inversion H; subst.
      match goal with X : Forall2 _ _ _ |- _ => inversion X; subst end.
      match goal with X : _ /\ _ |- _ => destruct X as [X _]; discriminate end.
Qed.

(** ** C09: quoting of strings *)

(** The quoted form denotes the string by the rules of RFC 8259. *)
Theorem C09_quote_rfc s : rfc_string (String_ (JString s)) s.
Proof. exact (quote_string_rfc s). Qed.

(** Parsing it gives the string back whatever stands behind. *)
Theorem C09_quote_parse s rest :
  Parse (String_ (JString s) ++ rest) = SOk (JString s) (length (String_ (JString s))).
Proof.
  unfold Parse. pose proof (stream_gval true [] (quote_string s) (JString s) [] rest) as H.
  specialize (H ltac:(constructor) ltac:(constructor; apply quote_string_ok) ltac:(constructor) ltac:(discriminate) []).
  exact H.
Qed.

(** Prefix-free, hence injective. *)
Theorem C09_quote_prefix_free s s' r r' :
  String_ (JString s) ++ r = String_ (JString s') ++ r' -> s = s' /\ r = r'.
Proof.
  intros E. pose proof (C09_quote_parse s r) as P. rewrite E, C09_quote_parse in P.
  injection P as -> _. split; [reflexivity|]. apply app_inv_head in E. exact E.
Qed.

(** No raw control byte in it. *)
Theorem C09_no_control s : Forall (fun c => 32 <= bz c) (String_ (JString s)).
Proof.
  unfold String_. cbn [build_string]. unfold quote_string.
  assert (forall c, Forall (fun c => 32 <= bz c) (escape_char c)) as H.
  { intros c. destruct c; vm_compute; repeat constructor; discriminate. }
  constructor; [vm_compute; discriminate|]. apply Forall_app. split.
  - induction s as [|c s IH]; [constructor|]. simpl. apply Forall_app. split; [apply H | exact IH].
  - repeat constructor. vm_compute. discriminate.
Qed.

(** Text without control bytes, quotes and backslashes is left as it is. *)
Theorem C09_untouched s : Forall (fun c => 32 <= bz c /\ c <> """"%byte /\ c <> "\"%byte) s ->
  String_ (JString s) = [""""%byte] ++ s ++ [""""%byte].
Proof.
  intros H. unfold String_. cbn [build_string]. unfold quote_string. f_equal. f_equal.
  induction H as [|c s (H1 & H2 & H3) _ IH]; [reflexivity|]. simpl. rewrite IH.
  replace (escape_char c) with [c]; [reflexivity|].
  destruct c; try reflexivity; try congruence; exfalso; apply H1; reflexivity.
Qed.

(** In every text the quoting works byte by byte: what stands for a byte does
    not depend on its neighbours, and bytes that need no escape stand for
    themselves. *)
Theorem C09_bytewise : exists esc : byte -> bytes,
  (forall s, String_ (JString s) = [""""%byte] ++ flat_map esc s ++ [""""%byte]) /\
  (forall c, 32 <= bz c -> c <> """"%byte -> c <> "\"%byte -> esc c = [c]) /\
  (forall c, bz c < 32 \/ c = """"%byte \/ c = "\"%byte -> exists r, esc c = "\"%byte :: r /\ r <> []).
Proof.
  exists escape_char. split; [reflexivity|]. split.
  - intros c H1 H2 H3. destruct c; try reflexivity; try congruence; exfalso; apply H1; reflexivity.
  - intros c H. destruct c; try (eexists; split; [reflexivity|discriminate]); exfalso; destruct H as [H|[H|H]]; try discriminate H; unfold bz in H; simpl in H; lia.
Qed.

Example C09_sample : String_ (JString ["a"; x01; """"; x0a; xff]%byte) = B """a\u0001\""\n" ++ [xff; """"%byte].
Proof. reflexivity. Qed.

(** ** C38: integer texts *)

(** Every int64 prints as its decimal numeral and is read back. *)
Theorem C38_int_text z : - 2 ^ 63 <= z < 2 ^ 63 ->
  Parse (String_ (JInt z)) = SOk (JInt z) (length (String_ (JInt z)))
  /\ exists neg ip, String_ (JInt z) = minus neg ++ ip /\ rfc_int ip
       /\ z = (if neg then - dec_value ip else dec_value ip).
Proof.
  intros Hz. apply in_int64_spec in Hz. split.
  - apply parse_of_suffix.
    pose proof (gram_parse_suffix false [] (format_int z) (JInt z) [] []) as H. simpl in H.
    rewrite app_nil_r in H. apply H; [constructor | constructor; apply format_int_tok; exact Hz | constructor |].
    intros _. exact I.
  - unfold String_. cbn [build_string]. unfold format_int. destruct (z <? 0) eqn:E.
    + apply Z.ltb_lt in E. exists true, (format_uint (- z)).
      destruct (format_uint_rfc (- z) ltac:(lia)) as [H1 H2]. split; [reflexivity|]. split; [exact H1|]. lia.
    + apply Z.ltb_ge in E. exists false, (format_uint z).
      destruct (format_uint_rfc z ltac:(lia)) as [H1 H2]. split; [reflexivity|]. split; [exact H1|]. lia.
Qed.

(** A decimal numeral, leading zeros included, is read as exactly the integer
    it denotes when that fits, and never as an integer otherwise. *)
Theorem C38_decimal_text (neg : bool) ds : digits ds ->
  let z := if neg then - dec_value ds else dec_value ds in
  (- 2 ^ 63 <= z < 2 ^ 63 -> Parse (minus neg ++ ds) = SOk (JInt z) (length (minus neg ++ ds)))
  /\ (~ (- 2 ^ 63 <= z < 2 ^ 63) -> exists v, Parse (minus neg ++ ds) = SOk v (length (minus neg ++ ds))
       /\ forall y, v <> JInt y).
Proof.
  intros [Hne Hd] z.
  assert (exists v, bare_value (minus neg ++ ds) = Some v
    /\ (- 2 ^ 63 <= z < 2 ^ 63 -> v = JInt z) /\ (~ (- 2 ^ 63 <= z < 2 ^ 63) -> forall y, v <> JInt y)
    /\ tok_ok (minus neg ++ ds) v) as (v & Hb & H1 & H2 & Ht).
  { destruct ds as [|c r]; [congruence|].
    pose proof (proj1 (digits_all _) Hd) as Ha.
    assert (is_digit c = true) as Hc by (inversion Ha; assumption).
    pose proof (parse_int_digits neg (c :: r) ltac:(discriminate) Ha) as P. cbv zeta in P. fold z in P.
    pose proof (bare_value_num neg c r Hc) as Q. rewrite P in Q.
    destruct (in_int64 z) eqn:Ez.
    - eexists. split; [exact Q|]. split; [intros _; reflexivity|]. split; [intros X; exfalso; apply X; apply in_int64_spec; exact Ez|].
      apply num_tok_ok; [exact Hc | apply digits_nodelim; exact Ha | exact Q].
    - assert (exists v, bare_value (minus neg ++ c :: r) = Some v /\ forall y, v <> JInt y) as (v & Hv & Hn).
      { destruct (parse_float F64 (minus neg ++ c :: r)); rewrite Q; eexists; split; try reflexivity; discriminate. }
      exists v. split; [exact Hv|]. split; [intros X; apply in_int64_spec in X; congruence|]. split; [intros _; exact Hn|].
      apply num_tok_ok; [exact Hc | apply digits_nodelim; exact Ha | exact Hv]. }
  assert (Parse (minus neg ++ ds) = SOk v (length (minus neg ++ ds))) as P.
  { apply parse_of_suffix. pose proof (gram_parse_suffix false [] (minus neg ++ ds) v [] []) as H. simpl in H.
    rewrite app_nil_r in H. apply H; [constructor | constructor; exact Ht | constructor | intros _; exact I]. }
  split; intros Hz; [rewrite (H1 Hz) in P; exact P | exists v; split; [exact P | exact (H2 Hz)]].
Qed.

(** Whenever the parser answers with an integer, that integer is what the
    decimal numeral in the text denotes. *)
Theorem C38_ints_are_exact s z o : Parse s = SOk (JInt z) o ->
  exists w sg ds r, s = w ++ sg ++ ds ++ r /\ rfc_ws w /\ digits ds /\ o = length (w ++ sg ++ ds)
    /\ ((sg = [] \/ sg = ["+"%byte]) /\ z = dec_value ds \/ sg = ["-"%byte] /\ z = - dec_value ds)
    /\ - 2 ^ 63 <= z < 2 ^ 63.
Proof.
  intros H. unfold Parse, ParseStream in H. simpl in H.
  destruct (parse_suffix s) as [v r|e r|p|] eqn:E; try discriminate. injection H as -> <-.
  unfold parse_suffix in E. destruct (skip_empty_suffix s) as [w Hw].
  assert (rfc_ws w) as Hws.
  { apply wsp_rfc. revert Hw. clear. revert w. induction s as [|c s IH]; intros w H.
    - destruct w; [constructor | discriminate].
    - simpl in H. destruct (is_ws c) eqn:Ec.
      + destruct w as [|x w]; [simpl in H; exfalso|].
        * pose proof (skip_empty_length s) as L. rewrite <- H in L. simpl in L. lia.
        * injection H as -> H. constructor; [exact Ec | apply IH; exact H].
      + destruct w as [|x w]; [constructor|]. exfalso. simpl in H. injection H as _ H.
        apply (f_equal (@length _)) in H. rewrite app_length in H. simpl in H. lia. }
  destruct (skip_empty s) as [|c s1] eqn:Es; [discriminate|].
  destruct (parse_value _ _ _) as [[v ss] r'|? ?|?|] eqn:Ev; try discriminate. injection E as -> ->.
  unfold parse_fuel in Ev. cbn [length] in Ev.
  replace (2 * S (length s1) + 2)%nat with (S (2 * length s1 + 3)) in Ev by lia.
  cbn [parse_value] in Ev.
  destruct (beq c "["%byte); [destruct (array_loop _ _ _ _) as [[? ?] ?|? ?|?|]; discriminate|].
  destruct (beq c "{"%byte).
  { destruct (dict_loop _ _ _ _ _) as [[[? nid] ?] ?|? ?|?|]; try discriminate.
    destruct (0 <? nid); [destruct (save_node _ _)|]; discriminate. }
  destruct (parse_scalar (c :: s1)) as [v' r''|? ?|?|] eqn:Ep; try discriminate. injection Ev as -> _ ->.
  unfold parse_scalar in Ep. cbn [parse_string] in Ep.
  destruct (beq c """"%byte || beq c "'"%byte).
  { destruct (parse_quoted c [] s1) as [[|? ?] ?|? ?|?|]; discriminate. }
  destruct (bare_token (c :: s1)) as [t r0] eqn:Eb. apply bare_token_split in Eb as (Eb & _ & _).
  destruct t as [|c0 t]; [discriminate|].
  destruct (bare_value (c0 :: t)) as [v|] eqn:Ebv; [|discriminate]. injection Ep as -> ->.
  assert (parse_int (c0 :: t) = Some z) as Hi.
  { unfold bare_value in Ebv. destruct (_ && _); [destruct (parse_int _); discriminate|].
    cbv zeta in Ebv. destruct (_ || _); [discriminate|]. destruct (_ || _); [discriminate|].
    destruct (_ || _); [discriminate|]. destruct (parse_int (c0 :: t)); [congruence|].
    destruct (parse_float F64 (c0 :: t)); discriminate. }
  rewrite Hw, Eb. clear Ebv Hw Eb Es.
  assert (forall ds n, parse_digits ds = Some n -> digits ds /\ n = dec_value ds) as Hp.
  { intros ds n X. unfold parse_digits in X. destruct ds as [|d ds]; [discriminate|].
    pose proof (digits_acc_some _ _ _ X) as Ha. split; [split; [discriminate | apply digits_all; exact Ha]|].
    symmetry. apply digits_acc_value. exact X. }
  unfold parse_int in Hi.
  assert (forall (sg ds : bytes) (x : bytes), (w ++ (sg ++ ds) ++ r) = w ++ sg ++ ds ++ r) as Hass
    by (intros; rewrite <- app_assoc; reflexivity).
  assert (forall a : bytes, (length (w ++ a ++ r) - length r)%nat = length (w ++ a)) as Hlen
    by (intros; rewrite !app_length; lia).
  destruct (beq_spec c0 "+"%byte) as [->|_].
  - destruct (parse_digits t) as [n|] eqn:Ed; [|discriminate]. destruct (in_int64 n) eqn:En; [|discriminate].
    injection Hi as <-. apply Hp in Ed as [Hd ->]. exists w, ["+"%byte], t, r.
    split; [reflexivity|]. split; [exact Hws|]. split; [exact Hd|]. split; [exact (Hlen ("+"%byte :: t))|].
    split; [left; auto | apply in_int64_spec; exact En].
  - destruct (beq_spec c0 "-"%byte) as [->|_].
    + destruct (parse_digits t) as [n|] eqn:Ed; [|discriminate]. destruct (in_int64 (- n)) eqn:En; [|discriminate].
      injection Hi as <-. apply Hp in Ed as [Hd ->]. exists w, ["-"%byte], t, r.
      split; [reflexivity|]. split; [exact Hws|]. split; [exact Hd|]. split; [exact (Hlen ("-"%byte :: t))|].
      split; [right; auto | apply in_int64_spec; exact En].
    + destruct (parse_digits (c0 :: t)) as [n|] eqn:Ed; [|discriminate]. destruct (in_int64 n) eqn:En; [|discriminate].
      injection Hi as <-. apply Hp in Ed as [Hd ->]. exists w, [], (c0 :: t), r.
      split; [reflexivity|]. split; [exact Hws|]. split; [exact Hd|]. split; [exact (Hlen (c0 :: t))|].
      split; [left; auto | apply in_int64_spec; exact En].
Qed.

Example C38_extremes : Parse (String_ (JInt (- 2 ^ 63))) = SOk (JInt (- 2 ^ 63)) 20
  /\ Parse (B "9223372036854775808") = SOk (JFloat (FFin false (2 ^ 52) 11) 0) 19.
Proof. split; vm_compute; reflexivity. Qed.

(** ** C39: float texts *)

(** The text of every float64 (strconv.FormatFloat 'f' -1 64, as used by
    String and GetString) converts back to the identical float64. *)
Theorem C39_float_text f : fl_ok F64 f = true -> parse_float F64 (float_string f 64) = Some f.
Proof. intros H. apply parse_format_float'; [exact F64_valid | exact H]. Qed.

(** The digits written are right in the sense of IEEE 754: a finite positive
    float is the correct rounding of the decimal number in its text, for both
    widths; and reading is correct rounding for any decimal number. *)
Theorem C39_float_digits F neg m e : F = F64 \/ F = F32 -> canon F m e = true -> 0 < m ->
  exists ip fs, format_float F (FFin neg m e) = minus neg ++ ip ++ (match fs with [] => [] | _ => "."%byte :: fs end)
    /\ rfc_int ip /\ Forall digit fs
    /\ correctly_rounded F (decq (dec_value (ip ++ fs)) (- Z.of_nat (length fs))) m e.
Proof.
  intros HF Hc Hm. assert (format_valid F) as Hv by (destruct HF as [->| ->]; [exact F64_valid | exact F32_valid]).
  unfold format_float. rewrite (proj2 (Z.eqb_neq m 0)) by lia.
  destruct (shortest F m e) as [d j] eqn:Es. destruct (shortest_reads _ _ _ _ _ Hv Hc Hm Es) as [Hd Hr].
  pose proof (round_dec_nearest _ _ _ _ _ Hv Hd Hr) as R.
  change (if neg then ["-"%byte] else []) with (minus neg).
  destruct (layout_rfc d j Hd) as [(Hj & ip & -> & Hip & Hval)|(Hj & ip & fs & -> & Hip & Hfs & Hval & Hlen)].
  - exists ip, []. split; [rewrite app_nil_r; reflexivity|]. split; [exact Hip|]. split; [constructor|].
    rewrite app_nil_r, Hval. eapply correctly_rounded_eq; [|exact R].
    rewrite decq_int by exact Hj. unfold decq. cbn [length Z.of_nat Z.opp Qpower].
    rewrite Qmult_1_r. reflexivity.
  - destruct Hfs as [Hne Hfs]. exists ip, fs. destruct fs as [|f fs]; [congruence|].
    split; [reflexivity|]. split; [exact Hip|]. split; [exact Hfs|].
    rewrite Hval, Hlen. replace (- - j) with j by lia. exact R.
Qed.

Example C39_sample : float_string tenth 64 = B "0.1" /\ fl_ok F64 tenth = true
  /\ float_string (FFin true 1 (-1074)) 64 <> [].
Proof. split; [vm_compute; reflexivity|]. split; [reflexivity | vm_compute; discriminate]. Qed.

Print Assumptions C01_roundtrip.
Print Assumptions C01_parse_print_parse.
Print Assumptions C02_injective_exact.
Print Assumptions C03_rfc_text.
Print Assumptions C08_pretty.
Print Assumptions C09_quote_prefix_free.
Print Assumptions C38_ints_are_exact.
Print Assumptions C39_float_digits.
