(** The theorems of PropScalar.v, PropFloatSyntax.v, PropShortest.v,
    PropStreams.v, PropLenient.v, PropRefuse.v, PropTime.v and PropYaml.v
    applied to concrete values: every hypothesis is met there. *)
From Coq Require Import QArith.
From Verif Require Import Base Strconv SpecFloat SpecFloatText Json SpecJson SpecRFC SpecDict SpecScalar SpecText SpecPrint SpecLenient SpecRefuse SpecTime
  Printer Parser Access JErrors Time Yaml Construct
  PropRoundtrip PropParse PropDict PropScalar PropFloatSyntax PropShortest PropLenient PropRefuse PropStreams PropTime PropYaml CaseText CaseDict.
Open Scope Z_scope.

Example C27_int_via_string_case := C27_int_via_string (-42) 0 _ eq_refl eq_refl.
Example C27_float_via_string_case := C27_float_via_string tenth 0 _ eq_refl eq_refl.
Lemma n42 : numeral (B "-42") (-42).
Proof. apply (nu_minus (B "42")). split; [discriminate|]. repeat constructor; vm_compute; discriminate. Qed.
Example C27_string_int_case : Int_ 1 (JString (B "-42")) [] = Some (ROk (-42)).
Proof. apply C27_string_int. split; [exact n42 | lia]. Qed.
Example C27_string_int_case2 : Int_ 1 (JString (B "4 2")) [] = Some (RErr ErrInvalidJsonInt).
Proof. apply C27_string_int. intros z [H _].
  inversion H as [ds [_ D] E|ds [_ D] E|ds [_ D] E]; try discriminate.
  rewrite Forall_forall in D. specialize (D " "%byte ltac:(cbn; auto)). vm_compute in D. intuition congruence.
Qed.
Lemma n15 : rfc_number (B "-12.5") true 125 (-1) false.
Proof.
  apply (rn_frac true (B "12") (B "5")).
  - split; [split; [discriminate | repeat constructor; vm_compute; discriminate] | right; discriminate].
  - split; [discriminate | repeat constructor; vm_compute; discriminate].
Qed.
Example C27_string_float_case : exists m e, Float_ 1 (JString (B "-12.5")) [] = Some (ROk (FFin true m e)) /\ correctly_rounded F64 (decq 125 (-1)) m e.
Proof.
  apply (C27_string_float 0 _ _ _ _ _ n15); [lia|]. unfold overflows. apply Qlt_not_le. vm_compute. reflexivity.
Qed.
Example C27_int_float_case := proj2 (C27_int_float 0 (2 ^ 53 + 1) eq_refl) ltac:(lia).
Example C27_wrong_type_case := proj2 (proj2 (proj2 (C27_wrong_type 0 (JArray [JInt 1])))) ka [kb] ltac:(discriminate).
Example C27_dict_path_case := C27_dict_path 0 7 dk [kb] (JInt 3) eq_refl ltac:(discriminate).
Example C27_dict_path_error_case := C27_dict_path_error 0 7 dk [ka; kd] _ eq_refl.
Example C27_dict_conversion_case := C27_dict_conversion_refuted 5 7 dk [ka] _ _ eq_refl.
Example C27_get_string_case : exists s, GetString (JArray [JInt 1; JNull]) [] = ROk s /\ s = B "[1,null]".
Proof.
  destruct (C27_get_string (JArray [JInt 1; JNull])) as (s & E & _ & F). exists s. split; [exact E|].
  rewrite F by discriminate. vm_compute. reflexivity.
Qed.
Lemma float_words : float_value (B "0X.8P+1") (FFin false 4503599627370496 (-52)).
Proof. apply C27_string_float_syntax_example. Qed.
Example C27_string_float_syntax_case := proj2 (proj1 (C27_string_float_syntax 0 (B "0X.8P+1")) _) float_words.
Example C27_float_unique_case := C27_float_unique _ _ _ float_words float_words.
Example C28_json_error_case := proj2 (C28_json_error (B "{""abcdefgh"": 12x4}") 15) ltac:(discriminate).
Example C35_us_case := C35_us (fun _ => true) (fun _ => true) (B "1,234,567.89") eq_refl.
Example C35_eu_case := proj1 (C35_eu (fun _ => false) (fun _ => true) (B "1.234.567,89") eq_refl eq_refl)
  (B "1.234.567") (B "89") eq_refl ltac:(cbn; intuition discriminate).
Example C35_other_case := proj2 (C35_other (fun _ => true) (fun _ => true) (B "-1234"))
  ltac:(cbn; intuition discriminate) ltac:(cbn; intuition discriminate).

Definition hd_doc : list (bytes * json) :=
  [(B "p.0", JInt 1); (B "p.1", JInt 2); (B "p.2", JNull); (B "p.3", JInt 4);
   (B "q", JDict 0 [(B "0", JString (B "x")); (B "1", JInt 5)])].
Example C37_array_of_prefix_case := C37_array_of_prefix 0 hd_doc (B "p") 6 ltac:(cbn; lia).
Example C37_array_of_prefix_other_case := C37_array_of_prefix_other (JArray [JInt 1]) (B "p") 0 ltac:(discriminate).
Example C37_query_string_array_case := C37_query_string_array 0 hd_doc (B "q") 3
  ltac:(intros n sub E; vm_compute in E; injection E as <- <-; cbn; lia).
Example C37_required_field_missing_case :=
  proj2 (C37_required_field_missing 0 hd_doc [B "p.0"; B "q"] (B "p.2") [B "zz"]
    ltac:(intros g [<-|[<-|[]]]; eexists; (split; [reflexivity | discriminate]))) eq_refl.
Example C37_required_no_dict_case := C37_required_no_dict (JArray []) [B "a"] ltac:(discriminate).

Example C39_shortest_case := C39_shortest F32 true 13421773 (-27) (or_intror eq_refl) eq_refl ltac:(lia).
Example C45_new_float_text_case := proj2 C45_new_float_text (FFin false 13421773 (-27)) eq_refl.

Example C12_exact_case := C12_exact _ _ _ _ C12_recovers.
Example C12_one_way_case := C12_one_way _ _ _ _ _ _ _ C12_recovers C12_recovers.
Example C54_stream_case := proj2 (C54_stream (B "ab") _ _ _) C54_by_grammar.
Example C54_unambiguous_case := C54_unambiguous _ _ _ _ _ C54_by_grammar C54_by_grammar.
Example C54_refused_case := proj1 (C54_refused (B "[1 2]")) (fun v n => proj1 (C54_not_sentences v n)).
Example C54_contains_rfc_case := C54_contains_rfc _ _ C04_sample.
Example C55_one_reason_case := C55_one_reason _ _ _ _ _ C55_by_grammar C55_by_grammar.
Example C55_not_both_case v n := fun H => C55_not_both (B " [1 2]") v n _ _ H C55_by_grammar.
Example C55_stream_case := proj2 (C55_stream (B "ab") _ _ _) C55_by_grammar.
Example C55_stream_panics_case := proj2 (C55_stream_panics (B "ab") _ _) (proj1 C55_crashing_texts).
Example C55_empty_case := proj1 (C55_empty (B "  ") 2) eq_refl.
Example C55_truncated_case := C55_truncated (B "[1, ") 4 eq_refl.

Lemma epoch_text : iso_time (B "1970-01-01T00:00:00Z") 0.
Proof. destruct (C42_text_means (Instant 0 0) ltac:(cbn; lia)) as (s & E & H). unfold new_time_string in E. injection E as <-. exact H. Qed.
Example C42_order_case := C42_order _ _ _ _ time_text_means epoch_text.
Example C42_text_unique_case := C42_text_unique _ _ _ _ time_text_means epoch_text.
Example C42_strings_sort_case := C42_strings_sort (Instant 1679573239 206000000) (Instant (-1) 500000000) _ _
  ltac:(cbn; lia) ltac:(cbn; lia) eq_refl eq_refl.
Lemma wide_text : wide_time (B "-0001-12-31T23:59:59Z") (-62167219201).
Proof. destruct (C42_any_year (Instant (-62167219201) 0)) as (s & E & H). rewrite (proj2 any_year_example) in E. injection E as <-. exact H. Qed.
Example C42_any_year_unique_case := C42_any_year_unique _ _ _ _ wide_text wide_text.
Example C42_get_time_case := C42_get_time_partial p_std _ _ p_std_reads time_text_means.
Example C42_not_a_string_case := C42_not_a_string p_std (JInt 5) [ka] ltac:(discriminate) ltac:(discriminate).

Lemma y_doc_float64 : only_float64 y_doc.
Proof. intros f bit H. unfold y_doc in H. subs H. Qed.
Example C41_yaml_case := C41_yaml_partial flow_style y_doc (proj1 y_doc_hyps) y_doc_float64
  (proj1 (proj2 y_doc_hyps)) (proj1 (proj2 (proj2 y_doc_hyps))) (flow_style_keeps _).
Example C41_yaml_exact_case := C41_yaml_exact_partial flow_style y_doc (proj1 y_doc_hyps)
  (proj1 (proj2 y_doc_hyps)) (proj1 (proj2 (proj2 y_doc_hyps))) (proj2 (proj2 (proj2 y_doc_hyps))) (flow_style_keeps _).
Example C41_same_text_case := C41_same_text flow_style y_doc y_doc (proj1 (proj2 y_doc_hyps)) (proj1 (proj2 y_doc_hyps)) eq_refl.
