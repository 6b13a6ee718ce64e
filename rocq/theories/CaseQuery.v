(** The theorems of PropQuery.v, PropQueryParse.v, PropConstruct.v,
    PropDeserialize.v, PropNative.v and PropNil.v applied to concrete values:
    every hypothesis is met there. *)
From Coq Require Import Sorting.Sorted Sorting.Permutation.
From Verif Require Import Base Strconv SortedMap Json SpecJson SpecPrint SpecDict SpecEquals Printer Parser Access Equals Query SpecQuery SpecQueryParse QueryParseFacts
  Construct Gotypes Marshal Unmarshal Deserialize Native SpecNative Heap SpecHeap HeapRead SpecShare SpecNil
  PropRoundtrip PropDict PropQuery PropQueryParse PropConstruct PropDeserialize PropNative PropNil CaseText CaseDict.
Open Scope Z_scope.

(** * Query strings *)
Definition q_kvs : list (bytes * json) :=
  [(B "7", JArray [JNull; JInt 5; JArray [str "=&;"]]); (q_a, JDict 3 [(B "-1", JBool true); (q_b, str "")])].
Example C24_query_roundtrip_case := C24_query_roundtrip 9 q_kvs (proj1 C24_example).
Definition q_strings : list (bytes * json) := [(q_a, JArray [str "x y"; str ""]); (q_b, str "&")].
Lemma q_strings_ok : query_dict q_strings /\ all_strings (JDict 0 q_strings).
Proof.
  assert (plain_key q_a) as Pa by (apply plain_ex; [reflexivity|intros [H|[]]; discriminate]).
  assert (plain_key q_b) as Pb by (apply plain_ex; [reflexivity|intros [H|[]]; discriminate]).
  split; [split|].
  - repeat constructor.
  - constructor; [|constructor; [|constructor]]; (split; [assumption|split; [discriminate|]]); simpl.
    + apply qv_array; [discriminate| |repeat constructor|vm_compute; discriminate].
      repeat (constructor; [apply qv_scalar; exact Logic.I|]). constructor.
    + apply qv_scalar; exact Logic.I.
  - cbn. repeat (constructor || split).
Qed.
Example C24_query_roundtrip_strings_case := C24_query_roundtrip_strings q_strings (proj1 q_strings_ok) (proj2 q_strings_ok).
Lemma pa : plain_key q_a. Proof. apply plain_ex; [reflexivity|intros [H|[]]; discriminate]. Qed.
Example C24_repeated_key_case := C24_repeated_key q_a [B "1"; B "x y"; B ""] pa ltac:(discriminate) ltac:(cbn; lia).
Example C24_noncanonical_key_case := C24_noncanonical_key (B "007") 7 (B "v") ltac:(cbn; intuition discriminate) eq_refl
  ltac:(vm_compute; discriminate).
Example C25_only_multimap_case : ParseQueryString (B "a.1=y&b=2&a.0=x") = ParseQueryString (B "&b=2&&a.0=%78&a.1=y").
Proof. destruct C25_example as (m & m' & E & E' & S & _). exact (C25_only_multimap _ _ _ _ E E' S). Qed.
Example C25_map_order_case : exists m', parse_query (B "&b=2&&a.0=%78&a.1=y") = Some m' /\
  forall ks sorted, enumerates m' ks -> sort_result (map string2segments ks) sorted ->
  add_all m' (JDict 0 []) sorted = ParseQueryString (B "a.1=y&b=2&a.0=x").
Proof. destruct C25_example as (m & m' & E & E' & S & _). exists m'. split; [exact E'|]. exact (C25_map_order _ _ _ _ E E' S). Qed.
Example C25_undecodable_case := C25_undecodable (B "a=%zz&b=1") eq_refl.
Example C25_result_is_dict_case := C25_result_is_dict (B "a.1=y&b=2&a.0=x") _ eq_refl.
Example C26_transitive_case := C26_transitive (string2segments (B "z")) (string2segments (B "b.9")) (string2segments (B "b.10")) eq_refl eq_refl.
Example C26_split_join_case := C26_split_join [B "a"; B "007"] ltac:(discriminate)
  ltac:(repeat constructor; cbn; intuition discriminate).

Lemma ex_means : query_means ex_query ex_meaning. Proof. apply C63_example. Qed.
Example C63_one_meaning_case := C63_one_meaning _ _ _ ex_means ex_means.
Example C63_syntax_error_case := proj1 (C63_syntax_error (B "a=%zz&b=1")) eq_refl.
Example C63_succeeds_case := C63_succeeds _ _ ex_means (proj1 (proj1 (proj2 C63_example))).
Example C63_dicts_case := C63_dicts _ _ ex_means (proj1 (proj2 C63_example)).
Definition bad_query : bytes := B "a=1&01.x=v&1.y=w".
Lemma bad_means : exists m, query_means bad_query m. Proof. eexists. apply query_iff. reflexivity. Qed.
Example C63_fails_iff_case : exists m, query_means bad_query m /\ exists k p, In k (map fst m) /\ path_of k p /\
  (forall k', path_of k' (map as_number p) -> ~ In k' (map fst m)) /\
    (forall k' p', In k' (map fst m) -> path_of k' p' -> as_number (List.hd [] p') = as_number (List.hd [] p) ->
       segs_less (string2segments k') (string2segments k) = false).
Proof. destruct bad_means as [m M]. exists m. split; [exact M|]. apply (C63_fails_iff _ _ M). eexists. reflexivity. Qed.
Example C63_error_kind_case : exists m, query_means bad_query m /\ forall e, ParseQueryString bad_query = RErr e -> e = ErrNilInputField.
Proof. destruct bad_means as [m M]. exists m. split; [exact M|]. intros e. exact (C63_error_kind _ _ e M). Qed.
Example C63_from_query_case j := fun x => C63_from_query _ _ j x ex_means.
Lemma ex_values : values_given (B "d") ex_meaning [B "/x y"].
Proof. repeat first [apply given_here | apply given_other; [discriminate|]]. constructor. Qed.
Example C63_top_level_case := C63_top_level ex_query ex_meaning _ (B "d") [B "/x y"] ex_means (proj1 (proj2 (proj2 C63_example)))
  ltac:(cbn; intuition discriminate) eq_refl ex_values ltac:(discriminate).

(** * Constructors *)
Lemma dk_keys : keys_increasing dk. Proof. pose proof dk_ok as H. inversion H. assumption. Qed.
Example C45_new_dict_same_case := C45_new_dict_same dk dk_keys.
Example C45_new_dict_order_case := C45_new_dict_order [(kb, JInt 1); (ka, JNull); (kc, JInt 2)] [(ka, JNull); (kb, JInt 1); (kc, JInt 2)]
  ltac:(repeat constructor; cbn; intuition discriminate) (perm_swap _ _ _).
Example C45_new_array_case := proj1 (proj2 (proj2 (proj2 (proj2 (C45_new_array [JInt 1; JNull]))))) 1%nat JNull eq_refl.
Example C45_scalars_case := proj1 (proj2 (proj2 (proj2 C45_scalars))) (FFin false 13421773 (-27)) eq_refl.
Example C45_query_boolean_default_case := C45_query_boolean_default (fun _ => false) (JArray [JBool true]) ka true ltac:(discriminate).

(** * JSONDeserialize *)
Section Deserialize_cases.
Let env : nat -> list (finfo * gty) := fun _ => [].
Let loc : list (finfo * gty) -> bytes -> list nat := fun _ _ => [].
Definition d_text : bytes := B "{b:[x,<7>],a:1,___jnid_:7}".
Example C46_object_case := C46_object env loc d_no d_no d_no d_none d_none d_no 0 d_text _ _ eq_refl.
Example C46_dict_case := C46_dict env loc d_no d_no d_no d_none d_none d_no 0 d_text _ _ _ eq_refl.
Example C46_array_case := C46_array env loc d_no d_no d_no d_none d_none d_no 0 (B "[1,{a:2}]") _ _ eq_refl.
Example C46_dict_round_trip_case := C46_dict_round_trip env loc d_no d_no d_no d_none d_none d_no 0 _ _ sample_printable.
Example C46_dict_round_trip_exact_case :=
  C46_dict_round_trip_exact env loc d_no d_no d_no d_none d_none d_no 0 _ exact_printable exact_stable.
Definition arr : json := JArray [JInt 1; JString (B "x"); JNull].
Lemma arr_hyps : printable arr /\ text_stable arr.
Proof.
  split; [split; [|split; [|split]]|split].
  - unfold arr. json_ok_tac.
  - intros f bit H. unfold arr in H. subs H.
  - intros nid kvs H. unfold arr in H. subs H.
  - constructor.
  - intros f bit H. unfold arr in H. subs H.
  - intros nid kvs H. unfold arr in H. subs H.
Qed.
Example C46_array_round_trip_exact_case :=
  C46_array_round_trip_exact env loc d_no d_no d_no d_none d_none d_no 0 _ (proj1 arr_hyps) (proj2 arr_hyps).
Example C46_wrong_kind_case := C46_wrong_kind env loc d_no d_no d_no d_none d_none d_no 0 (B "[1,{a:2}]") _ _ eq_refl.
Example C46_scalar_accepted_case := C46_scalar_accepted env loc d_no d_no d_no d_none d_none d_no 0 (B "17") _ _ eq_refl.
Example C46_parse_error_case := C46_parse_error env loc d_no d_no d_no d_none d_none d_no 0 made_dict (B "[1 2]") _ _
  ltac:(discriminate) eq_refl.
Example C46_outcomes_case := C46_outcomes env loc d_no d_no d_no d_none d_none d_no 0 made_array d_text
  (or_intror (or_intror eq_refl)).
End Deserialize_cases.

(** * Interface() and back *)
Example C36_native_round_trip_case := C36_native_round_trip sample sample_ok.
Lemma sample_no_reference : no_reference exact_sample. Proof. intros n H. unfold exact_sample in H. subs H. Qed.
Lemma sample_no_nan : no_nan exact_sample. Proof. intros bit H. unfold exact_sample in H. subs H; discriminate. Qed.
Example C36_native_keeps_content_case := C36_native_keeps_content exact_sample exact_ok sample_no_reference sample_no_nan.
Example C36_native_marshal_case := C36_native_marshal sample sample_ok.

(** * nil and cycles *)
Lemma nil_wf : heap_wf ex_nil_heap. Proof. apply C62_wf_example. Qed.
Example C62_string_case := C62_string ex_nil_heap 0%nat nil_wf ltac:(cbn; lia).
Example C62_pretty_string_case := C62_pretty_string ex_nil_heap 3%nat nil_wf ltac:(cbn; lia).
Example C62_interface_case := C62_interface ex_nil_heap 4%nat nil_wf ltac:(cbn; lia).
Example C62_query_string_case := C62_query_string ex_nil_heap 0%nat _ nil_wf eq_refl.
Example C62_value_iff_case := C62_value_iff ex_nil_heap 4%nat nil_wf ltac:(cbn; lia).
Lemma four_holds : holds ex_nil_heap 4%nat (JDict 0 [(B "a", JInt 7)]). Proof. exists 2%nat. reflexivity. Qed.
Example C62_equals_values_case := C62_equals_values ex_nil_heap 4%nat 4%nat _ _ four_holds four_holds.
Example C62_equals_ends_case := C62_equals_ends ex_nil_heap 4%nat 4%nat 2%nat ltac:(discriminate).
Example C62_equals_true_case := C62_equals_true ex_nil_heap 4%nat 4%nat (proj2 C62_wf_example).
Example C62_equals_panics_case := C62_equals_panics ex_nil_heap 0%nat 0%nat nil_wf ltac:(cbn; lia) ltac:(cbn; lia)
  (proj1 (proj2 (proj2 (proj2 (proj2 (proj2 (proj2 C62_example))))))).
Example C62_equals_runs_case := C62_equals_runs ex_nil_heap 3%nat 3%nat
  (proj2 (proj2 (proj2 (proj2 (proj2 (proj2 (proj2 C62_example))))))).
Example C62_get_nil_case := C62_get_nil [CDict 0 [(ka, None)]] 0%nat 0 [(ka, None)] ka eq_refl eq_refl.
Example C62_get_at_nil_case := C62_get_at_nil ex_nil_heap 1%nat _ 1%nat eq_refl eq_refl.
