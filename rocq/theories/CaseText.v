(** The theorems of PropRoundtrip.v and PropParse.v applied to concrete
    values and texts: every hypothesis is met there. *)
From Coq Require Import QArith.
From Verif Require Import Base Strconv SpecFloat Json SpecJson SpecRFC SpecText SpecPrint Printer Parser PrintFacts PrintFacts2 PropRoundtrip PropParse.
Open Scope Z_scope.

(** a dict with an array of all kinds of scalars and an inner dict *)
Definition exact_sample : json :=
  JDict 0 [ (["a"%byte], JArray [JInt (-5); JString ["x"; """"; "y"; x01]%byte; JNull; JBool true; JFloat tenth 0]);
            (["b"%byte], JDict 0 [(["k"%byte], JString ["v"%byte])]) ].
Lemma exact_ok : json_ok exact_sample. Proof. unfold exact_sample. json_ok_tac. Qed.
Lemma exact_printable : printable exact_sample.
Proof.
  split; [exact exact_ok|]. split; [|split].
  - intros f bit H. unfold exact_sample in H. subs H; discriminate.
  - intros nid kvs H. unfold exact_sample in H. subs H; vm_compute; intuition discriminate.
  - unfold distinct_ids. vm_compute. constructor.
Qed.
Lemma exact_plain : plain_json exact_sample.
Proof.
  split; [|split].
  - intros f bit H. unfold exact_sample in H. subs H; unfold tenth; eauto.
  - intros n H. unfold exact_sample in H. subs H.
  - intros nid kvs H. unfold exact_sample in H. subs H; lia.
Qed.
Lemma exact_stable : text_stable exact_sample.
Proof.
  split.
  - intros f bit H. unfold exact_sample in H. subs H. split; [reflexivity|].
    intros neg m e E. injection E as <- <- <-. split; [reflexivity | exact tenth_not_integral].
  - intros nid kvs H. unfold exact_sample in H. subs H; discriminate || lia.
Qed.
Lemma exact_keys : plain_keys exact_sample.
Proof.
  intros nid kvs k H Hk. unfold exact_sample in H.
  subs H; cbn [map fst] in Hk; subs Hk; vm_compute; intuition discriminate.
Qed.

Example C01_roundtrip_case := C01_roundtrip sample sample_printable.
Example C01_roundtrip_exact_case := C01_roundtrip_exact sample sample_printable sample_stable.
Example C01_parse_print_parse_case := C01_parse_print_parse (B "{b:1,a:[0.5 ,x],b:3} rest") _ _ eq_refl.
(** 3.0 = 3 * 2^51 * 2^-51 *)
Example C01_small_integral_float_case := C01_small_integral_float true (3 * 2 ^ 51) (-51) 0 3 (JInt (-3))
  ltac:(lia) ltac:(lia) ltac:(reflexivity).
Example C02_injective_case : String_ sample = String_ plain_sample -> _ :=
  C02_injective sample plain_sample sample_printable plain_sample_printable.
Example C02_injective_exact_case := C02_injective_exact exact_sample exact_sample exact_printable exact_printable
  exact_stable exact_stable eq_refl.
Example C03_rfc_text_exact_case := C03_rfc_text_exact exact_sample exact_ok exact_plain exact_stable.
Example C08_pretty_case := C08_pretty plain_sample plain_sample_ok
  (proj1 (proj2 plain_sample_printable)) (proj1 (proj2 (proj2 plain_sample_printable))) (proj1 C08_sample).
Example C08_pretty_same_case := C08_pretty_same exact_sample exact_printable exact_keys exact_stable eq_refl.
Example C09_quote_prefix_free_case := C09_quote_prefix_free ["a"%byte; """"%byte] ["a"%byte; """"%byte] (B ",1") (B ",1") eq_refl.
Example C09_untouched_case := C09_untouched (B "caf" ++ [xc3; xa9])
  ltac:(repeat constructor; vm_compute; intuition discriminate).
Example C38_int_text_case := C38_int_text (- 2 ^ 63) ltac:(lia).
Lemma nines : digits (B "99999999999999999999").
Proof. split; [discriminate|]. repeat constructor; vm_compute; discriminate. Qed.
Example C38_decimal_text_case := proj2 (C38_decimal_text true (B "99999999999999999999") nines)
  ltac:(vm_compute; intuition discriminate).
Example C38_ints_are_exact_case := C38_ints_are_exact (B " +0017,x") _ _ eq_refl.
Example C39_float_text_case := C39_float_text tenth eq_refl.
Example C39_float_digits_case := C39_float_digits F32 true 8388609 (-23) (or_intror eq_refl) eq_refl ltac:(lia).

(** * Parsing *)

Example C04_rfc_accepted_case := C04_rfc_accepted _ _ C04_sample.
Example C04_rfc_unambiguous_case := C04_rfc_unambiguous _ _ _ C04_sample C04_sample.
Example C05_bounds_case := C05_bounds (B "x [1] y") 1 ltac:(cbn; lia).
Example C05_behind_end_case := C05_behind_end (B "[1]") 3 ltac:(cbn; lia).
Example C06_no_panic_case := C06_no_panic _ (proj1 C06_sample) (proj1 (proj2 C06_sample)).
Example C06_no_panic_stream_case := C06_no_panic_stream (B "ab[1 2") 2 (proj1 C06_sample) (proj1 (proj2 C06_sample)).
Example C07_unterminated_case := C07_unterminated_string_refuted """"%byte (B "abc") (or_introl eq_refl)
  ltac:(cbn; intuition discriminate) ltac:(cbn; intuition discriminate).
Example C07_serialised_case := C07_serialised exact_sample (firstn 20 (String_ exact_sample)) (skipn 20 (String_ exact_sample))
  exact_ok (proj1 (proj2 exact_printable)) exact_plain (proj1 (proj2 (proj2 exact_printable))) Logic.I
  (eq_sym (firstn_skipn 20 _)) ltac:(vm_compute; discriminate).

(** Texts of members: b then a, and the same in the other order, with a
    repeated name *)
Lemma ws_nil : rfc_ws []. Proof. constructor. Qed.
Lemma num_rfc (K : bytes -> Prop) (d : byte) : In d (B "123456789") ->
  rfc_value K [d] (JInt (bz d - 48)).
Proof.
  intros H. assert (dec_value [d] = bz d - 48) as D by (unfold dec_value; simpl; lia).
  assert (49 <= bz d <= 57) as R by (cbn in H; repeat destruct H as [H|H]; subst; vm_compute; intuition discriminate || destruct H).
  apply (rv_number K [d] false (bz d - 48) 0 true).
  - rewrite <- D. apply (rn_int false [d]). split; [split; [discriminate | constructor; [unfold digit; lia | constructor]]|].
    right. cbn. intros ->. destruct R as [R _]. vm_compute in R. apply R. reflexivity.
  - apply (nv_int false (bz d - 48)). lia.
Qed.
Lemma str_rfc (c : byte) : 97 <= bz c <= 122 -> rfc_string [""""%byte; c; """"%byte] [c].
Proof.
  intros H. apply (rs [c] [c]). apply (rcs_cons [c] [c] [] []); [|constructor].
  apply rc_raw; [lia | |]; intros ->; destruct H as [H _]; vm_compute in H; apply H; reflexivity.
Qed.
Lemma member_rfc (c d : byte) : 97 <= bz c <= 122 -> In d (B "123456789") ->
  rfc_member not_reserved [""""%byte; c; """"%byte; ":"%byte; d] ([c], JInt (bz d - 48)).
Proof.
  intros Hc Hd. apply (mb not_reserved [] [""""%byte; c; """"%byte] [c] [] [] [d] []);
    try exact ws_nil; [apply str_rfc; exact Hc | discriminate | apply num_rfc; exact Hd].
Qed.
Definition ms1 : list (bytes * json) := [(["b"%byte], JInt 9); (["a"%byte], JInt 2); (["b"%byte], JInt 1)].
Definition ms2 : list (bytes * json) := [(["a"%byte], JInt 2); (["b"%byte], JInt 1)].
Lemma ms2_rfc : rfc_members not_reserved (B """a"":2,""b"":1") ms2.
Proof.
  apply (mb_more not_reserved (B """a"":2") _ (B """b"":1")).
  - apply (member_rfc "a"%byte "2"%byte); [vm_compute; split; discriminate | cbn; auto].
  - apply mb_one. apply (member_rfc "b"%byte "1"%byte); [vm_compute; split; discriminate | cbn; auto].
Qed.
Lemma ms1_rfc : rfc_members not_reserved (B """b"":9,""a"":2,""b"":1") ms1.
Proof.
  apply (mb_more not_reserved (B """b"":9") _ (B """a"":2,""b"":1")); [|exact ms2_rfc].
  apply (member_rfc "b"%byte "9"%byte); [vm_compute; split; discriminate | cbn; tauto].
Qed.
Lemma ms_same : forall k, last_member k ms1 = last_member k ms2.
Proof.
  intros k. unfold ms1, ms2. cbn [last_member].
  destruct (bseq k ["b"%byte]), (bseq k ["a"%byte]); reflexivity.
Qed.
Lemma ms2_object : object_value ms2 ms2.
Proof.
  split.
  - unfold ms2, keys_increasing. repeat (constructor; try reflexivity).
  - intros k. unfold ms2. cbn [last_member lookup].
    destruct (bseq k ["a"%byte]) eqn:A, (bseq k ["b"%byte]) eqn:Eb; try reflexivity.
    exfalso. apply bseq_eq in A. apply bseq_eq in Eb. congruence.
Qed.
Example C11_canonical_case := C11_canonical (B "{b:1,a:2,b:3}") _ _ C11_sample.
Example C11_member_order_case := C11_member_order _ _ _ _ ms1_rfc ms2_rfc ms_same.

Definition obj_text : bytes := B "{""a"":2,""b"":1}".
Lemma obj_rfc : rfc_value not_reserved obj_text (JDict 0 ms2).
Proof. exact (rv_object not_reserved _ _ _ ms2_rfc ms2_object). Qed.
Example C07_truncated_case := C07_truncated obj_text (JDict 0 ms2) (B "{""a"":2,") (B """b"":1}") obj_rfc Logic.I
  eq_refl ltac:(discriminate).
Lemma open1 : open_elements not_reserved (B "1,2,") [JInt 1; JInt 2].
Proof.
  apply (oe_cons not_reserved [] (B "1") [] (JInt 1) (B "2,")); try exact ws_nil;
    [exact (num_rfc not_reserved "1"%byte ltac:(cbn; auto))|].
  apply (oe_cons not_reserved [] (B "2") [] (JInt 2) []); try exact ws_nil;
    [exact (num_rfc not_reserved "2"%byte ltac:(cbn; auto)) | constructor].
Qed.
Example C07_open_array_accepted_case := C07_open_array_accepted _ _ open1.
Lemma open2 : open_members not_reserved (B """a"":2,""b"":1,") ms2.
Proof.
  apply (om_cons not_reserved (B """a"":2") _ (B """b"":1,")).
  - apply (member_rfc "a"%byte "2"%byte); [vm_compute; split; discriminate | cbn; auto].
  - apply (om_cons not_reserved (B """b"":1") _ []); [|constructor].
    apply (member_rfc "b"%byte "1"%byte); [vm_compute; split; discriminate | cbn; auto].
Qed.
Example C07_open_object_accepted_case := C07_open_object_accepted _ _ _ open2 ms2_object.

Example C10_decode_case := C10_decode "'"%byte _ _ (B ", more") (or_intror eq_refl) C10_sample.
Example C10_only_case := C10_only """"%byte (B "a\tb"" x") _ _ (or_introl eq_refl) eq_refl.

Lemma log_no_bracket : no_bracket (B "log: ").
Proof. unfold no_bracket. repeat constructor; vm_compute; intuition discriminate. Qed.
Lemma nil_no_bracket : no_bracket []. Proof. constructor. Qed.
Example C12_split_case := C12_split [(B "log: ", sample); (B "log: ", plain_sample)] (B "log: ")
  (Forall_cons (B "log: ", sample) (conj log_no_bracket (conj sample_printable Logic.I))
    (Forall_cons (B "log: ", plain_sample) (conj log_no_bracket (conj plain_sample_printable Logic.I)) (Forall_nil _)))
  log_no_bracket.
Example C12_split_rfc_case := C12_split_rfc [(B "log: ", obj_text, JDict 0 ms2); ([], obj_text, JDict 0 ms2)] (B "log: ")
  (Forall_cons (B "log: ", obj_text, JDict 0 ms2) (conj log_no_bracket (conj obj_rfc Logic.I))
    (Forall_cons ([], obj_text, JDict 0 ms2) (conj nil_no_bracket (conj obj_rfc Logic.I)) (Forall_nil _)))
  log_no_bracket.
Example C12_error_case := C12_error _ _ (proj2 (proj2 C12_sample)).
Example C12_values_parsed_case := C12_values_parsed _ _ _ (JArray [JInt 1]) (proj1 C12_sample) (or_introl eq_refl).
Example C13_container_end_case := C13_container_end (B "xx [1] y") 2 _ _ C13_sample Logic.I ltac:(cbn; lia) (B "other").
Example C13_serialised_end_case := C13_serialised_end sample [" "%byte; x0a] (B "rest") (B "abc") sample_printable Logic.I
  (Forall_cons _ (or_introl eq_refl) (Forall_cons _ (or_intror (or_intror (or_introl eq_refl))) (Forall_nil _))).
