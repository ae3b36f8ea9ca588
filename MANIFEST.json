{
 "claims": [
  {
   "property": "C01",
   "status": "proved",
   "theorems": [
    "C01_after_end",
    "C01_eof_is_the_end",
    "C01_eof_for_ever",
    "C01_nul_refuted",
    "C01_scan_total",
    "C01_scans_total",
    "C01_reaches_end"
   ],
   "note": ""
  },
  {
   "property": "C02",
   "status": "proved",
   "theorems": [
    "C02_tokens",
    "C02_complete",
    "C02_grammar_unambiguous",
    "C02_nul_refuted"
   ],
   "note": ""
  },
  {
   "property": "C03",
   "status": "proved",
   "theorems": [
    "C03_names",
    "C03_names_complete",
    "C03_nul_refuted",
    "C03_stray_byte_refuted"
   ],
   "note": ""
  },
  {
   "property": "C04",
   "status": "proved",
   "theorems": [
    "C04_numbers",
    "C04_int_complete",
    "C04_float_complete",
    "C04_malformed_illegal",
    "C04_nul_refuted"
   ],
   "note": ""
  },
  {
   "property": "C05",
   "status": "proved",
   "theorems": [
    "C05_strings",
    "C05_string_tokens",
    "C05_bad_strings_illegal"
   ],
   "note": ""
  },
  {
   "property": "C06",
   "status": "proved",
   "theorems": [
    "C06_block_strings",
    "C06_crlf_refuted",
    "C06_cr_dropped_refuted",
    "C06_backslash_refuted",
    "C06_control_refuted"
   ],
   "note": ""
  },
  {
   "property": "C07",
   "status": "proved",
   "theorems": [
    "C07_lines",
    "C07_columns",
    "C07_crlf",
    "C07_crlf_first",
    "C07_crlf_lines",
    "C07_crlf_refuted",
    "C07_line_refuted",
    "C07_block_refuted",
    "C07_empty_string_refuted",
    "C07_dangling_quote_refuted"
   ],
   "note": ""
  },
  {
   "property": "C08",
   "status": "proved",
   "theorems": [
    "C08_encode",
    "C08_decode",
    "C08_invalid",
    "C08_length"
   ],
   "note": ""
  },
  {
   "property": "C09",
   "status": "proved",
   "theorems": [
    "C09_only_lexemes_matter",
    "C09_insertion",
    "C09_same_document",
    "C09_insertion_same_document"
   ],
   "note": ""
  },
  {
   "property": "C10",
   "status": "proved",
   "theorems": [
    "C10_parse_terminates"
   ],
   "note": ""
  },
  {
   "property": "C11",
   "status": "proved",
   "theorems": [
    "C11_panic_only_on_dangling_fragment",
    "C11_dangling_fragment_panics",
    "C11_panic_iff",
    "C11_never_panics_refuted"
   ],
   "note": ""
  },
  {
   "property": "C12",
   "status": "proved",
   "theorems": [
    "C12_complete",
    "C12_complete_text",
    "C12_unambiguous"
   ],
   "note": ""
  },
  {
   "property": "C13",
   "status": "proved",
   "theorems": [
    "C13_sound",
    "C13_all_consumed",
    "C13_exact",
    "C13_language",
    "C13_june2018_refuted"
   ],
   "note": ""
  },
  {
   "property": "C14",
   "status": "proved",
   "theorems": [
    "C14_counters",
    "C14_no_overflow"
   ],
   "note": ""
  },
  {
   "property": "C15",
   "status": "proved",
   "theorems": [
    "C15_roundtrip",
    "C15_idempotent",
    "C15_positions_irrelevant",
    "C15_injective",
    "C15_refuted"
   ],
   "note": ""
  },
  {
   "property": "C16",
   "status": "proved",
   "theorems": [
    "C16_when",
    "C16_parsed",
    "C16_grammatical",
    "C16_refuted"
   ],
   "note": ""
  },
  {
   "property": "C17",
   "status": "proved",
   "theorems": [
    "C17_add",
    "C17_len",
    "C17_forEach",
    "C17_reverse",
    "C17_join",
    "C17_insert",
    "C17_generator",
    "C17_fromSlice",
    "C17_sequences_step",
    "C17_sequences",
    "C17_initially",
    "C17_join_on_nil_refuted",
    "C17_generator_reset_refuted",
    "C17_self_join_refuted"
   ],
   "note": ""
  },
  {
   "property": "C18",
   "status": "proved",
   "theorems": [
    "C18_walk_order",
    "C18_tree_unique",
    "C18_recorded",
    "C18_entered_iff_in_document",
    "C18_entered_once_left_once",
    "C18_well_nested",
    "C18_registration_order"
   ],
   "note": ""
  },
  {
   "property": "C19",
   "status": "proved",
   "theorems": [
    "C19_any_document",
    "C19_exact",
    "C19_iff",
    "C19_mixed_document_refuted"
   ],
   "note": ""
  },
  {
   "property": "C20",
   "status": "proved",
   "theorems": [
    "C20_exact",
    "C20_parsed"
   ],
   "note": ""
  },
  {
   "property": "C21",
   "status": "proved",
   "theorems": [
    "C21_exact",
    "C21_iff",
    "C21_sdl_exact",
    "C21_sdl_defined"
   ],
   "note": ""
  },
  {
   "property": "C22",
   "status": "proved",
   "theorems": [
    "C22_exact",
    "C22_sdl_exact"
   ],
   "note": ""
  },
  {
   "property": "C23",
   "status": "proved",
   "theorems": [
    "C23_exact",
    "C23_repeats",
    "C23_none_iff_unique",
    "C23_sdl_exact"
   ],
   "note": ""
  },
  {
   "property": "C24",
   "status": "proved",
   "theorems": [
    "C24_exact",
    "C24_sites"
   ],
   "note": ""
  },
  {
   "property": "C25",
   "status": "proved",
   "theorems": [
    "C25_exact"
   ],
   "note": ""
  },
  {
   "property": "C26",
   "status": "proved",
   "theorems": [
    "C26_exact"
   ],
   "note": ""
  },
  {
   "property": "C27",
   "status": "proved",
   "theorems": [
    "C27_actual",
    "C27_exact_for_single_arguments",
    "C27_none_missed",
    "C27_only_defined_directives",
    "C27_second_argument_refuted"
   ],
   "note": ""
  },
  {
   "property": "C28",
   "status": "proved",
   "theorems": [
    "C28_exact"
   ],
   "note": ""
  },
  {
   "property": "C29",
   "status": "proved",
   "theorems": [
    "C29_actual",
    "C29_reserved_names_reported",
    "C29_reported_names",
    "C29_exact_without_single_underscores",
    "C29_single_underscore_refuted",
    "C29_enum_values_refuted"
   ],
   "note": ""
  },
  {
   "property": "C30",
   "status": "proved",
   "theorems": [
    "C30_exact",
    "C30_none_iff"
   ],
   "note": ""
  },
  {
   "property": "C31",
   "status": "proved",
   "theorems": [
    "C31_exact",
    "C31_second_occurrences",
    "C31_definition_after_extension_refuted"
   ],
   "note": ""
  },
  {
   "property": "C32",
   "status": "proved",
   "theorems": [
    "C32_types",
    "C32_directives",
    "C32_schema_definitions",
    "C32_none_iff"
   ],
   "note": ""
  },
  {
   "property": "C33",
   "status": "proved",
   "theorems": [
    "C33_doc_returned_iff",
    "C33_doc_reported_iff",
    "C33_doc_reported_nonempty",
    "C33_doc_otherwise",
    "C33_sdl_returned_iff",
    "C33_sdl_reported",
    "C33_sdl_otherwise",
    "C33_orders_exist",
    "C33_always_returns_refuted"
   ],
   "note": ""
  },
  {
   "property": "C34",
   "status": "proved",
   "theorems": [
    "C34_map_orders",
    "C34_types",
    "C34_directives",
    "C34_roots",
    "C34_order_independent",
    "C34_no_crash",
    "C34_valid_targets",
    "C34_definition_then_extensions",
    "C34_empty_base_refuted",
    "C34_schema_extension_alone_refuted"
   ],
   "note": ""
  },
  {
   "property": "C35",
   "status": "proved",
   "theorems": [
    "C35_actual",
    "C35_existing_definitions_refuted",
    "C35_existing_directives_refuted"
   ],
   "note": ""
  },
  {
   "property": "C36",
   "status": "proved",
   "theorems": [
    "C36_subtype_exact",
    "C36_subtype_terminates",
    "C36_subtype_terminates_refuted",
    "C36_schema_errors_exact",
    "C36_schema_valid_iff",
    "C36_schema_terminates_iff",
    "C36_never_panics_on_whole_types",
    "C36_schema_terminates",
    "C36_schema_terminates_refuted",
    "C36_never_panics_refuted"
   ],
   "note": ""
  },
  {
   "property": "C37",
   "status": "proved",
   "theorems": [
    "C37_plain_exact",
    "C37_message_iff",
    "C37_quote_invalid",
    "C37_faithful_refuted",
    "C37_unquoted"
   ],
   "note": ""
  },
  {
   "property": "C38",
   "status": "proved",
   "theorems": [
    "C38_permutation",
    "C38_sorted",
    "C38_canonical",
    "C38_canonical_plain",
    "C38_message_order",
    "C38_message_order_refuted",
    "C38_returns"
   ],
   "note": ""
  },
  {
   "property": "C39",
   "status": "proved",
   "theorems": [
    "C39_referenced_fragments",
    "C39_variable_usages_any",
    "C39_variable_usages"
   ],
   "note": ""
  },
  {
   "property": "C40",
   "status": "proved",
   "theorems": [
    "C40_exact",
    "C40_schema_exact"
   ],
   "note": ""
  },
  {
   "property": "C41",
   "status": "proved",
   "theorems": [
    "C41_exact",
    "C41_first_five",
    "C41_panics_iff",
    "C41_quoted_exact",
    "C41_quoted_keeps_argument_refuted"
   ],
   "note": ""
  },
  {
   "property": "C42",
   "status": "proved",
   "theorems": [
    "C42_returns"
   ],
   "note": ""
  },
  {
   "property": "C43",
   "status": "proved",
   "theorems": [
    "C43_read_only",
    "C43_rule_order",
    "C43_no_other_errors",
    "C43_sdl_read_only",
    "C43_sdl_no_other_errors"
   ],
   "note": ""
  },
  {
   "property": "C44",
   "status": "proved",
   "theorems": [
    "C44_verbatim"
   ],
   "note": ""
  },
  {
   "property": "C45",
   "status": "proved",
   "theorems": [
    "C45_field_exact",
    "C45_enum_value_exact",
    "C45_enum_value_missing_refuted"
   ],
   "note": ""
  },
  {
   "property": "C46",
   "status": "proved",
   "theorems": [
    "C46_error_is_final",
    "C46_prefix_is_hopeless"
   ],
   "note": ""
  },
  {
   "property": "C47",
   "status": "proved",
   "theorems": [
    "C47_exact",
    "C47_silent",
    "C47_count",
    "C47_others_unchanged",
    "C47_queries_never",
    "C47_queries_miss_duplicates"
   ],
   "note": ""
  },
  {
   "property": "C48",
   "status": "proved",
   "theorems": [
    "C48_doc_untouched",
    "C48_failed_untouched",
    "C48_overwritten",
    "C48_returned_is_given",
    "C48_nothing_left",
    "C48_extension_never_succeeds",
    "C48_atomic_refuted",
    "C48_builtins_shared"
   ],
   "note": ""
  },
  {
   "property": "C49",
   "status": "proved",
   "theorems": [
    "C49_input_exact",
    "C49_output_exact",
    "C49_input_or_output",
    "C49_kind_predicates",
    "C49_union_member_exact",
    "C49_implementations",
    "C49_implementations_order",
    "C49_possible_types",
    "C49_is_possible"
   ],
   "note": ""
  },
  {
   "property": "C50",
   "status": "proved",
   "theorems": [
    "C50_validation",
    "C50_only_lexemes_matter",
    "C50_insertion",
    "C50_dump"
   ],
   "note": ""
  },
  {
   "property": "C51",
   "status": "proved",
   "theorems": [
    "C51_concatenation",
    "C51_counters",
    "C51_files",
    "C51_separator_refuted",
    "C51_block_refuted",
    "C51_list_refuted"
   ],
   "note": ""
  },
  {
   "property": "C52",
   "status": "proved",
   "theorems": [
    "C52_sound_iff",
    "C52_returned_iff",
    "C52_returned_sound",
    "C52_closed",
    "C52_other_rules_refuted"
   ],
   "note": ""
  },
  {
   "property": "C53",
   "status": "proved",
   "theorems": [
    "C53_as_if_alone",
    "C53_schemas",
    "C53_sharing_refuted"
   ],
   "note": ""
  },
  {
   "property": "C54",
   "status": "proved",
   "theorems": [
    "C54_skeleton",
    "C54_sources",
    "C54_schema",
    "C54_schema_sources",
    "C54_unchecked_refuted"
   ],
   "note": ""
  },
  {
   "property": "C55",
   "status": "proved",
   "theorems": [
    "C55_any_input",
    "C55_text",
    "C55_refuted_bytes"
   ],
   "note": ""
  },
  {
   "property": "C56",
   "status": "proved",
   "theorems": [
    "C56_wanted_is_accepted",
    "C56_refuted_after_description"
   ],
   "note": ""
  },
  {
   "property": "C57",
   "status": "proved",
   "theorems": [
    "C57_message_identifies",
    "C57_reported_messages",
    "C57_schemas",
    "C57_refuted_handmade",
    "C57_extension_message_refuted",
    "C57_extension_text",
    "C57_operation_text",
    "C57_words"
   ],
   "note": ""
  },
  {
   "property": "C58",
   "status": "proved",
   "theorems": [
    "C58_misplaced_iff",
    "C58_message_iff",
    "C58_definition_lists",
    "C58_builtin"
   ],
   "note": ""
  },
  {
   "property": "C59",
   "status": "proved",
   "theorems": [
    "C59_first_error",
    "C59_incomplete",
    "C59_completable"
   ],
   "note": ""
  },
  {
   "property": "C60",
   "status": "proved",
   "theorems": [
    "C60_exact",
    "C60_error_iff",
    "C60_value_error_iff",
    "C60_value_appends",
    "C60_finite_iff",
    "C60_injection",
    "C60_errors_dropped"
   ],
   "note": ""
  },
  {
   "property": "C61",
   "status": "proved",
   "theorems": [
    "C61_illegal_says_why",
    "C61_any_block"
   ],
   "note": ""
  },
  {
   "property": "C62",
   "status": "proved",
   "theorems": [
    "C62_text",
    "C62_injective",
    "C62_missing_argument",
    "C62_field_type",
    "C62_parsed",
    "C62_read_back",
    "C62_refuted_unclosed"
   ],
   "note": ""
  },
  {
   "property": "C63",
   "status": "proved",
   "theorems": [
    "C63_query",
    "C63_query_returned",
    "C63_schema",
    "C63_sdl_errors",
    "C63_sdl_errors_counted",
    "C63_files",
    "C63_stray_refuted",
    "C63_twice_refuted",
    "C63_schema_extension_refuted",
    "C63_extensions_refuted"
   ],
   "note": ""
  },
  {
   "property": "C64",
   "status": "proved",
   "theorems": [
    "C64_errors",
    "C64_schema",
    "C64_returned",
    "C64_text",
    "C64_extension_refuted",
    "C64_scalars_refuted"
   ],
   "note": ""
  },
  {
   "property": "C65",
   "status": "proved",
   "theorems": [
    "C65_texts",
    "C65_nodes",
    "C65_bytes",
    "C65_bytes_refuted"
   ],
   "note": ""
  },
  {
   "property": "C66",
   "status": "proved",
   "theorems": [
    "C66_messages_exact",
    "C66_told_apart",
    "C66_parsed",
    "C66_one_flaw",
    "C66_handmade_refuted"
   ],
   "note": ""
  },
  {
   "property": "C67",
   "status": "proved",
   "theorems": [
    "C67_swap_refuted"
   ],
   "note": ""
  },
  {
   "property": "C68",
   "status": "proved",
   "theorems": [
    "C68_split",
    "C68_elsewhere_refuted"
   ],
   "note": ""
  },
  {
   "property": "C69",
   "status": "proved",
   "theorems": [
    "C69_tokens",
    "C69_frame",
    "C69_overwrite",
    "C69_shared",
    "C69_document",
    "C69_kept_refuted"
   ],
   "note": ""
  },
  {
   "property": "C70",
   "status": "proved",
   "theorems": [
    "C70_first",
    "C70_document",
    "C70_others",
    "C70_again_returns",
    "C70_again_never"
   ],
   "note": ""
  },
  {
   "property": "C71",
   "status": "proved",
   "theorems": [
    "C71_enough",
    "C71_needed",
    "C71_monotone",
    "C71_least",
    "C71_no_bound"
   ],
   "note": ""
  },
  {
   "property": "C72",
   "status": "proved",
   "theorems": [
    "C72_layout",
    "C72_lines_unique"
   ],
   "note": ""
  },
  {
   "property": "C73",
   "status": "proved",
   "theorems": [
    "C73_at_most",
    "C73_at_least",
    "C73_source",
    "C73_any_walker",
    "C73_no_bound",
    "C73_exact"
   ],
   "note": ""
  }
 ]
}