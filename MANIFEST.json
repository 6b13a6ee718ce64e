{
 "claims": [
  {
   "property": "C01",
   "status": "proved",
   "theorems": [
    "C01_roundtrip",
    "C01_roundtrip_exact",
    "C01_parse_print_parse",
    "C01_small_integral_float",
    "C01_float32_refuted",
    "C01_reserved_refuted",
    "C01_duplicate_id_refuted",
    "C01_integral_float_refuted"
   ],
   "note": ""
  },
  {
   "property": "C02",
   "status": "proved",
   "theorems": [
    "C02_injective",
    "C02_injective_exact"
   ],
   "note": ""
  },
  {
   "property": "C03",
   "status": "proved",
   "theorems": [
    "C03_rfc_text",
    "C03_rfc_text_exact",
    "C03_nan_refuted"
   ],
   "note": ""
  },
  {
   "property": "C04",
   "status": "proved",
   "theorems": [
    "C04_rfc_accepted",
    "C04_rfc_unambiguous",
    "C04_overflow_refuted",
    "C04_surrogate_refuted"
   ],
   "note": ""
  },
  {
   "property": "C05",
   "status": "proved",
   "theorems": [
    "C05_bounds",
    "C05_behind_end"
   ],
   "note": ""
  },
  {
   "property": "C06",
   "status": "proved",
   "theorems": [
    "C06_panic_refuted",
    "C06_no_panic",
    "C06_no_panic_stream"
   ],
   "note": ""
  },
  {
   "property": "C07",
   "status": "proved",
   "theorems": [
    "C07_truncation_refuted",
    "C07_unterminated_string_refuted",
    "C07_truncated",
    "C07_open_array_accepted",
    "C07_open_object_accepted",
    "C07_serialised"
   ],
   "note": ""
  },
  {
   "property": "C08",
   "status": "proved",
   "theorems": [
    "C08_pretty",
    "C08_pretty_same",
    "C08_key_refuted"
   ],
   "note": ""
  },
  {
   "property": "C09",
   "status": "proved",
   "theorems": [
    "C09_quote_rfc",
    "C09_quote_parse",
    "C09_quote_prefix_free",
    "C09_no_control",
    "C09_untouched",
    "C09_bytewise"
   ],
   "note": ""
  },
  {
   "property": "C10",
   "status": "proved",
   "theorems": [
    "C10_decode",
    "C10_only"
   ],
   "note": ""
  },
  {
   "property": "C11",
   "status": "proved",
   "theorems": [
    "C11_canonical",
    "C11_member_order"
   ],
   "note": ""
  },
  {
   "property": "C12",
   "status": "proved",
   "theorems": [
    "C12_split",
    "C12_split_rfc",
    "C12_terminates",
    "C12_error",
    "C12_values_parsed",
    "C12_every_input",
    "C12_exact",
    "C12_one_way"
   ],
   "note": ""
  },
  {
   "property": "C13",
   "status": "proved",
   "theorems": [
    "C13_shift",
    "C13_container_end",
    "C13_serialised_end"
   ],
   "note": ""
  },
  {
   "property": "C14",
   "status": "proved",
   "theorems": [
    "C14_any_history",
    "C14_any_history_from",
    "C14_observers",
    "C14_remove_reports",
    "C14_canonical"
   ],
   "note": ""
  },
  {
   "property": "C15",
   "status": "proved",
   "theorems": [
    "C15_remove_ignore_case",
    "C15_lookup_ignore_case",
    "C15_contains_ignore_case",
    "C15_exact_comparison"
   ],
   "note": ""
  },
  {
   "property": "C16",
   "status": "proved",
   "theorems": [
    "C16_add_success",
    "C16_add_then_get",
    "C16_add_failure",
    "C16_add_ok"
   ],
   "note": ""
  },
  {
   "property": "C17",
   "status": "proved",
   "theorems": [
    "C17_get_is_path",
    "C17_get_app",
    "C17_contains_iff_get",
    "C17_get_errors",
    "C17_missing_key_error",
    "C17_get_not_dict"
   ],
   "note": ""
  },
  {
   "property": "C18",
   "status": "proved",
   "theorems": [
    "C18_get_at",
    "C18_get_at_path",
    "C18_get_array",
    "C18_get_at_errors",
    "C18_get_map",
    "C18_add_appends",
    "C18_set_at"
   ],
   "note": ""
  },
  {
   "property": "C19",
   "status": "proved",
   "theorems": [
    "C19_update"
   ],
   "note": ""
  },
  {
   "property": "C20",
   "status": "proved",
   "theorems": [
    "C20_diff",
    "C20_diff_self"
   ],
   "note": ""
  },
  {
   "property": "C21",
   "status": "proved",
   "theorems": [
    "C21_equals_iff_same_content",
    "C21_symmetric",
    "C21_transitive",
    "C21_reflexive_iff_no_nan",
    "C21_order_irrelevant",
    "C21_kinds",
    "C21_reflexive_refuted",
    "C21_reference_refuted"
   ],
   "note": ""
  },
  {
   "property": "C22",
   "status": "proved",
   "theorems": [
    "C22_deep_copy_content",
    "C22_deep_copy_exact",
    "C22_mutating_the_copy",
    "C22_mutating_the_original",
    "C22_copy_top_level",
    "C22_copy_shares_members",
    "C22_references_become_nil_refuted",
    "C22_node_ids_are_dropped_refuted",
    "C22_cyclic_objects_refuted"
   ],
   "note": ""
  },
  {
   "property": "C23",
   "status": "proved",
   "theorems": [
    "C23_projections",
    "C23_copy_all"
   ],
   "note": ""
  },
  {
   "property": "C24",
   "status": "proved",
   "theorems": [
    "C24_query_roundtrip",
    "C24_query_roundtrip_strings",
    "C24_escaping",
    "C24_repeated_key",
    "C24_mixed_depth_refuted",
    "C24_key_zero_refuted",
    "C24_empty_container_refuted",
    "C24_noncanonical_key",
    "C24_escaped_bytes",
    "C24_text",
    "C24_text_empty"
   ],
   "note": ""
  },
  {
   "property": "C25",
   "status": "proved",
   "theorems": [
    "C25_map_order",
    "C25_only_multimap",
    "C25_undecodable",
    "C25_result_is_dict"
   ],
   "note": ""
  },
  {
   "property": "C26",
   "status": "proved",
   "theorems": [
    "C26_irreflexive",
    "C26_transitive",
    "C26_total",
    "C26_order",
    "C26_split_join",
    "C26_split_total"
   ],
   "note": ""
  },
  {
   "property": "C27",
   "status": "proved",
   "theorems": [
    "C27_string_float_syntax",
    "C27_float_unique",
    "C27_int_via_string",
    "C27_float_via_string",
    "C27_string_int",
    "C27_string_float",
    "C27_int_float",
    "C27_string_bool",
    "C27_wrong_type",
    "C27_dict_path",
    "C27_dict_path_error",
    "C27_dict_conversion_refuted",
    "C27_get_string"
   ],
   "note": ""
  },
  {
   "property": "C28",
   "status": "proved",
   "theorems": [
    "C28_json_error",
    "C28_never_out_of_range"
   ],
   "note": ""
  },
  {
   "property": "C29",
   "status": "proved",
   "theorems": [
    "C29_integers_covered",
    "C29_roundtrip",
    "C29_roundtrip_pointer",
    "C29_roundtrip_tame",
    "C29_object_roundtrip",
    "C29_bare_number_refuted",
    "C29_forward_reference_refuted",
    "C29_pointer_to_nil_refuted",
    "C29_empty_slice_refuted"
   ],
   "note": ""
  },
  {
   "property": "C30",
   "status": "proved",
   "theorems": [
    "C30_result_encodes_value",
    "C30_elements_dropped_iff_nil",
    "C30_field_dropped_iff",
    "C30_marshal_all_keeps_fields",
    "C30_only_field_names",
    "C30_same_when_nothing_dropped"
   ],
   "note": ""
  },
  {
   "property": "C31",
   "status": "proved",
   "theorems": [
    "C31_terminates",
    "C31_references_resolve",
    "C31_slice_refuted",
    "C31_double_pointer_refuted",
    "C31_alias_refuted",
    "C31_nodes_before_references",
    "C31_acyclic_no_references"
   ],
   "note": ""
  },
  {
   "property": "C32",
   "status": "proved",
   "theorems": [
    "C32_chain_value",
    "C32_loop_has_no_value",
    "C32_trapped_never_returns",
    "C32_refuted"
   ],
   "note": ""
  },
  {
   "property": "C33",
   "status": "proved",
   "theorems": [
    "C33_no_panic",
    "C33_others_keep",
    "C33_targets_hold_node",
    "C33_any_order",
    "C33_unmarshal_is_history",
    "C33_struct_fields",
    "C33_pointer_after_reference_refuted",
    "C33_reference_in_map_refuted"
   ],
   "note": ""
  },
  {
   "property": "C34",
   "status": "proved",
   "theorems": [
    "C34_nil_or_error",
    "C34_bool_or_float_into_unsigned_refuted",
    "C34_scalar_into_methods_refuted"
   ],
   "note": ""
  },
  {
   "property": "C35",
   "status": "proved",
   "theorems": [
    "C35_us",
    "C35_eu",
    "C35_other",
    "C35_integers"
   ],
   "note": ""
  },
  {
   "property": "C36",
   "status": "proved",
   "theorems": [
    "C36_is_zero",
    "C36_native_round_trip",
    "C36_native_keeps_content",
    "C36_native_marshal"
   ],
   "note": ""
  },
  {
   "property": "C37",
   "status": "proved",
   "theorems": [
    "C37_array_of_prefix",
    "C37_array_of_prefix_other",
    "C37_query_string_array",
    "C37_required_fields",
    "C37_required_field_missing",
    "C37_required_no_dict",
    "C37_any_string"
   ],
   "note": ""
  },
  {
   "property": "C38",
   "status": "proved",
   "theorems": [
    "C38_int_text",
    "C38_decimal_text",
    "C38_ints_are_exact"
   ],
   "note": ""
  },
  {
   "property": "C39",
   "status": "proved",
   "theorems": [
    "C39_float_text",
    "C39_float_digits",
    "C39_shortest"
   ],
   "note": ""
  },
  {
   "property": "C40",
   "status": "proved",
   "theorems": [
    "C40_touches_only_reachable",
    "C40_other_fields_keep",
    "C40_members_in_turn",
    "C40_one_member",
    "C40_unknown_member",
    "C40_outcome_is_members_errors"
   ],
   "note": ""
  },
  {
   "property": "C41",
   "status": "partial",
   "theorems": [
    "C41_yaml_partial",
    "C41_yaml_exact_partial",
    "C41_parse",
    "C41_same_text",
    "C41_reference_refuted"
   ],
   "note": "Relative to the YAML library (github.com/ghodss/yaml, not in /repo) keeping the meaning of the one text converted; the composition with String and Parse, the error cases and the exception of references are proved without further assumptions."
  },
  {
   "property": "C42",
   "status": "partial",
   "theorems": [
    "C42_text_means",
    "C42_order",
    "C42_text_unique",
    "C42_strings_sort",
    "C42_calendar",
    "C42_beyond_year_9999",
    "C42_any_year",
    "C42_any_year_unique",
    "C42_get_time_partial",
    "C42_round_trip_partial",
    "C42_first_reader_decides",
    "C42_path",
    "C42_string_with_keys",
    "C42_not_a_string"
   ],
   "note": "NewTimeString is proved in full (calendar, text, order; years 0000-9999, false beyond). GetTime is proved relative to the contract of timeutils.ParseTimeStr and time.Parse, which are not in /repo (hypothesis iso_readers, met by a concrete reader)."
  },
  {
   "property": "C43",
   "status": "proved",
   "theorems": [
    "C43_converted",
    "C43_table_functional",
    "C43_ignored",
    "C43_mismatched",
    "C43_mismatched_json",
    "C43_no_number",
    "C43_crashes",
    "C43_unmarshaler",
    "C43_time",
    "C43_keys",
    "C43_null",
    "C43_pointer",
    "C43_nil_pointer",
    "C43_pointer_to_time",
    "C43_string_into_slice",
    "C43_string_into_empty_slice"
   ],
   "note": ""
  },
  {
   "property": "C44",
   "status": "proved",
   "theorems": [
    "C44_array_into_slice",
    "C44_array_into_new_slice",
    "C44_array_into_array",
    "C44_array_elsewhere",
    "C44_dict_into_map",
    "C44_dict_into_nil_map",
    "C44_dict_elsewhere",
    "C44_dict_into_other_map",
    "C44_pointer",
    "C44_other_pointer"
   ],
   "note": ""
  },
  {
   "property": "C45",
   "status": "proved",
   "theorems": [
    "C45_new_dict",
    "C45_new_dict_same",
    "C45_new_dict_order",
    "C45_new_array",
    "C45_dict_observers",
    "C45_scalars",
    "C45_string_array",
    "C45_get_string_array",
    "C45_query_boolean",
    "C45_query_boolean_default",
    "C45_new_float_text"
   ],
   "note": ""
  },
  {
   "property": "C46",
   "status": "proved",
   "theorems": [
    "C46_object",
    "C46_dict",
    "C46_array",
    "C46_dict_round_trip",
    "C46_dict_round_trip_exact",
    "C46_array_round_trip_exact",
    "C46_wrong_kind",
    "C46_scalar_accepted",
    "C46_parse_error",
    "C46_outcomes"
   ],
   "note": ""
  },
  {
   "property": "C47",
   "status": "proved",
   "theorems": [
    "C47_same_object",
    "C47_null",
    "C47_error",
    "C47_frame",
    "C47_converted",
    "C47_converted_nil",
    "C47_changes_only_in_conversions",
    "C47_variables_typed",
    "C47_containers_kept",
    "C47_earlier_document_refuted",
    "C47_true_becomes_false_refuted",
    "C47_agrees"
   ],
   "note": ""
  },
  {
   "property": "C50",
   "status": "proved",
   "theorems": [
    "C50_interface",
    "C50_interface_returns_only_if_finite",
    "C50_interface_of_cycle_refuted",
    "C50_equals",
    "C50_not_equal_to_itself_refuted",
    "C50_step_by_step",
    "C50_step_by_step_complete",
    "C50_path_through_reference_refuted",
    "C50_get_string",
    "C50_without_references",
    "C50_reference_delegates",
    "C50_conversion_of_reference_refuted",
    "C50_marshal_links",
    "C50_links_are_dicts"
   ],
   "note": ""
  },
  {
   "property": "C49",
   "status": "proved",
   "theorems": [
    "C49_persists",
    "C49_pointer_persists",
    "C49_object_persists",
    "C49_float32_refuted",
    "C49_negative_zero_refuted",
    "C49_reserved_key_refuted",
    "C49_restored_without_text"
   ],
   "note": ""
  },
  {
   "property": "C48",
   "status": "proved",
   "theorems": [
    "C48_update",
    "C48_again",
    "C48_other_fields_keep",
    "C48_bare_number_refuted",
    "C48_map_merges_refuted"
   ],
   "note": ""
  },
  {
   "property": "C51",
   "status": "proved",
   "theorems": [
    "C51_as_if_alone",
    "C51_wait_free",
    "C51_string",
    "C51_no_race",
    "C51_race_refuted"
   ],
   "note": ""
  },
  {
   "property": "C52",
   "status": "proved",
   "theorems": [
    "C52_set",
    "C52_remove",
    "C52_remove_ignore_case",
    "C52_update",
    "C52_update_default",
    "C52_append",
    "C52_set_at",
    "C52_get",
    "C52_get_ignore_cases",
    "C52_get_at",
    "C52_add",
    "C52_null_identity",
    "C52_nil_in_the_way",
    "C52_seen_once",
    "C52_seen_everywhere",
    "C52_not_seen_elsewhere",
    "C52_get_then_set",
    "C52_sharing_refuted",
    "C52_cycle_refuted",
    "C52_update_shares_refuted"
   ],
   "note": ""
  },
  {
   "property": "C53",
   "status": "proved",
   "theorems": [
    "C53_idle_hooks",
    "C53_runs_last",
    "C53_one_call_per_dict",
    "C53_no_dict_no_call",
    "C53_sees_everything_refuted",
    "C53_receiver_in_map_refuted",
    "C53_calls",
    "C53_panics",
    "C53_declared_is_called",
    "C53_receiver",
    "C53_how_often",
    "C53_terminates",
    "C53_once_refuted",
    "C53_no_panic_refuted",
    "C53_ends_refuted"
   ],
   "note": ""
  },
  {
   "property": "C54",
   "status": "proved",
   "theorems": [
    "C54_language",
    "C54_stream",
    "C54_unambiguous",
    "C54_refused",
    "C54_contains_rfc"
   ],
   "note": ""
  },
  {
   "property": "C55",
   "status": "proved",
   "theorems": [
    "C55_errors",
    "C55_panics",
    "C55_every_text",
    "C55_not_both",
    "C55_one_reason",
    "C55_stream",
    "C55_stream_panics",
    "C55_empty",
    "C55_truncated"
   ],
   "note": ""
  },
  {
   "property": "C56",
   "status": "proved",
   "theorems": [
    "C56_panics_only",
    "C56_returns_only",
    "C56_ends",
    "C56_returns_iff",
    "C56_panics_iff",
    "C56_never_ends",
    "C56_otherwise",
    "C56_named_bool",
    "C56_own_map_refuted"
   ],
   "note": ""
  },
  {
   "property": "C57",
   "status": "proved",
   "theorems": [
    "C57_null",
    "C57_nil",
    "C57_keys",
    "C57_gives_up",
    "C57_would_set",
    "C57_map",
    "C57_other_map",
    "C57_slice",
    "C57_string_slice",
    "C57_pointer",
    "C57_array",
    "C57_nil_pointer",
    "C57_interface",
    "C57_serializable",
    "C57_json_pointer",
    "C57_json_pointer_panics",
    "C57_reference",
    "C57_cases",
    "C57_unchanged"
   ],
   "note": ""
  },
  {
   "property": "C58",
   "status": "proved",
   "theorems": [
    "C58_keys",
    "C58_keys_scalar",
    "C58_keys_in_parts",
    "C58_reference",
    "C58_linked",
    "C58_not_linked",
    "C58_passed_over",
    "C58_keys_refuted",
    "C58_linked_refuted"
   ],
   "note": ""
  },
  {
   "property": "C59",
   "status": "proved",
   "theorems": [
    "C59_determined",
    "C59_new",
    "C59_elsewhere",
    "C59_independent"
   ],
   "note": ""
  },
  {
   "property": "C60",
   "status": "proved",
   "theorems": [
    "C60_as_if_there",
    "C60_pointer_set",
    "C60_pointer_error",
    "C60_pointer_named",
    "C60_pointer_kept"
   ],
   "note": ""
  },
  {
   "property": "C61",
   "status": "proved",
   "theorems": [
    "C61_order_free",
    "C61_one_result",
    "C61_string_keys",
    "C61_number_texts",
    "C61_members",
    "C61_cycles_refuted",
    "C61_equal_texts_refuted"
   ],
   "note": ""
  },
  {
   "property": "C62",
   "status": "proved",
   "theorems": [
    "C62_string",
    "C62_pretty_string",
    "C62_interface",
    "C62_query_string",
    "C62_value_iff",
    "C62_equals_values",
    "C62_equals_ends",
    "C62_equals_true",
    "C62_equals_panics",
    "C62_equals_runs",
    "C62_equals_itself_refuted",
    "C62_equals_symmetric_refuted",
    "C62_get_nil",
    "C62_get_at_nil",
    "C62_deep_copy",
    "C62_copy_cannot_be_printed"
   ],
   "note": ""
  },
  {
   "property": "C63",
   "status": "proved",
   "theorems": [
    "C63_one_meaning",
    "C63_syntax_error",
    "C63_fails_iff",
    "C63_error_kind",
    "C63_succeeds",
    "C63_from_query",
    "C63_top_level",
    "C63_dicts"
   ],
   "note": ""
  },
  {
   "property": "C64",
   "status": "proved",
   "theorems": [
    "C64_value",
    "C64_by_value",
    "C64_slice",
    "C64_map",
    "C64_interfaces",
    "C64_interface_map",
    "C64_idempotent_refuted"
   ],
   "note": ""
  },
  {
   "property": "C65",
   "status": "proved",
   "theorems": [
    "C65_same_graph",
    "C65_sharing",
    "C65_elsewhere",
    "C65_cycles_sharing_refuted"
   ],
   "note": ""
  },
  {
   "property": "C66",
   "status": "proved",
   "theorems": [
    "C66_required",
    "C66_required_same",
    "C66_required_copy",
    "C66_prefix",
    "C66_required_nil",
    "C66_prefix_nil",
    "C66_prefix_other",
    "C66_prefix_same",
    "C66_prefix_copy"
   ],
   "note": ""
  },
  {
   "property": "C67",
   "status": "proved",
   "theorems": [
    "C67_new_object",
    "C67_others_kept",
    "C67_points_to_new",
    "C67_before_ignored",
    "C67_no_factory",
    "C67_nil_factory",
    "C67_null",
    "C67_no_dict",
    "C67_pointer_merges"
   ],
   "note": ""
  },
  {
   "property": "C68",
   "status": "proved",
   "theorems": [
    "C68_written",
    "C68_comes_back",
    "C68_unsigned_refuted",
    "C68_struct_refuted",
    "C68_slice_refuted",
    "C68_float_arrives",
    "C68_exact_floats",
    "C68_small_floats_refuted"
   ],
   "note": ""
  },
  {
   "property": "C69",
   "status": "proved",
   "theorems": [
    "C69_marshal",
    "C69_marshal_field",
    "C69_unmarshal",
    "C69_unmarshal_field",
    "C69_null",
    "C69_time_by_value"
   ],
   "note": ""
  },
  {
   "property": "C70",
   "status": "proved",
   "theorems": [
    "C70_parse",
    "C70_string",
    "C70_pretty_string",
    "C70_string_no_escapes",
    "C70_rewritten",
    "C70_query_string",
    "C70_high_escape_refuted"
   ],
   "note": ""
  },
  {
   "property": "C71",
   "status": "proved",
   "theorems": [
    "C71_size",
    "C71_size_input",
    "C71_depth",
    "C71_streams",
    "C71_string"
   ],
   "note": ""
  },
  {
   "property": "C72",
   "status": "proved",
   "theorems": [
    "C72_persists",
    "C72_pointer_persists",
    "C72_object_persists",
    "C72_large_unsigned_refuted",
    "C72_empty_slice_refuted",
    "C72_json_number_refuted",
    "C72_marshal_all_refuted"
   ],
   "note": ""
  },
  {
   "property": "C73",
   "status": "proved",
   "theorems": [
    "C73_agrees",
    "C73_unmarshaler",
    "C73_time",
    "C73_replaced",
    "C73_dict",
    "C73_allocates",
    "C73_allocates_unmarshaler",
    "C73_null",
    "C73_never_returns",
    "C73_trapped_pointer",
    "C73_ends_refuted",
    "C73_follows_refuted"
   ],
   "note": ""
  }
 ]
}