{
 "claims": [
  {
   "property": "C01",
   "status": "proved",
   "theorems": [
    "C01_sort_stable",
    "C01_sort_permutation",
    "C01_generic_stable",
    "C01_dates_total"
   ],
   "note": ""
  },
  {
   "property": "C02",
   "status": "proved",
   "theorems": [
    "C02_each_directive_once",
    "C02_in_order"
   ],
   "note": ""
  },
  {
   "property": "C03",
   "status": "proved",
   "theorems": [
    "C03_parse"
   ],
   "note": ""
  },
  {
   "property": "C04",
   "status": "proved",
   "theorems": [
    "C04_parse_does_not_panic",
    "C04_panics_iff",
    "C04_includes_globbed",
    "C04_pass_does_not_panic"
   ],
   "note": "the panic in question is unreachable; other panics (division by zero, non-ASCII currencies and dates) are characterised by C20, C18, C49, C42"
  },
  {
   "property": "C05",
   "status": "proved",
   "theorems": [
    "C05_errors",
    "C05_terminates",
    "C05_reads",
    "C05_root_unreadable",
    "C05_tables_consistent",
    "C05_ids",
    "C05_read_once"
   ],
   "note": ""
  },
  {
   "property": "C06",
   "status": "proved",
   "theorems": [
    "C06_terminates",
    "C06_bound_immaterial",
    "C06_entered_once"
   ],
   "note": ""
  },
  {
   "property": "C07",
   "status": "proved",
   "theorems": [
    "C07_reports",
    "C07_included_again",
    "C07_root_included",
    "C07_unreadable",
    "C07_first_include_of_link_refuted"
   ],
   "note": "C07_first_include_of_link_refuted: the converse fails for a file reached through a symbolic link, which is reported as duplicate at its first include"
  },
  {
   "property": "C08",
   "status": "proved",
   "theorems": [
    "C08_tags"
   ],
   "note": ""
  },
  {
   "property": "C09",
   "status": "proved",
   "theorems": [
    "C09_metadata"
   ],
   "note": ""
  },
  {
   "property": "C10",
   "status": "proved",
   "theorems": [
    "C10_unbalanced",
    "C10_balanced"
   ],
   "note": ""
  },
  {
   "property": "C11",
   "status": "proved",
   "theorems": [
    "C11_own_precedence"
   ],
   "note": ""
  },
  {
   "property": "C12",
   "status": "proved",
   "theorems": [
    "C12_first_wins",
    "C12_reports",
    "C12_report_at",
    "C12_rejected_unchanged",
    "C12_maxlines_last_wins",
    "C12_options_of_walk"
   ],
   "note": ""
  },
  {
   "property": "C13",
   "status": "proved",
   "theorems": [
    "C13_entries",
    "C13_first_entries_meaning",
    "C13_duplicate_reported"
   ],
   "note": ""
  },
  {
   "property": "C14",
   "status": "proved",
   "theorems": [
    "C14_tolerance_fallback"
   ],
   "note": ""
  },
  {
   "property": "C15",
   "status": "proved",
   "theorems": [
    "C15_update_accepts",
    "C15_update_rejects",
    "C15_update_same",
    "C15_names_bijection"
   ],
   "note": ""
  },
  {
   "property": "C16",
   "status": "proved",
   "theorems": [
    "C16_account_new",
    "C16_account_errors",
    "C16_reachable_names"
   ],
   "note": ""
  },
  {
   "property": "C17",
   "status": "proved",
   "theorems": [
    "C17_account_type_name",
    "C17_account_name",
    "C17_key",
    "C17_tag_link",
    "C17_flag_letter",
    "C17_account_type_name_errors",
    "C17_account_name_errors",
    "C17_key_errors",
    "C17_tag_link_errors",
    "C17_flag_letter_errors",
    "C17_subaccount",
    "C17_subaccount_errors"
   ],
   "note": ""
  },
  {
   "property": "C18",
   "status": "proved",
   "theorems": [
    "C18_accepts",
    "C18_panics",
    "C18_total_refuted",
    "C18_errors",
    "C18_short"
   ],
   "note": "C18_total_refuted: validating a currency panics on non-ASCII text"
  },
  {
   "property": "C19",
   "status": "proved",
   "theorems": [
    "C19_reads_longest",
    "C19_fails",
    "C19_terminates",
    "C19_unambiguous",
    "C19_shape",
    "C19_tree_read_back"
   ],
   "note": ""
  },
  {
   "property": "C20",
   "status": "proved",
   "theorems": [
    "C20_evaluates_tree",
    "C20_value",
    "C20_scale",
    "C20_division_by_zero_panics",
    "C20_panics_only_if"
   ],
   "note": ""
  },
  {
   "property": "C21",
   "status": "proved",
   "theorems": [
    "C21_file_warnings",
    "C21_directive",
    "C21_string",
    "C21_warning"
   ],
   "note": ""
  },
  {
   "property": "C22",
   "status": "proved",
   "theorems": [
    "C22_titles",
    "C22_third"
   ],
   "note": ""
  },
  {
   "property": "C23",
   "status": "proved",
   "theorems": [
    "C23_metadata",
    "C23_tags_links",
    "C23_currencies",
    "C23_merge",
    "C23_directive"
   ],
   "note": ""
  },
  {
   "property": "C24",
   "status": "proved",
   "theorems": [
    "C24_accepts",
    "C24_rejects",
    "C24_order_irrelevant",
    "C24_errors"
   ],
   "note": ""
  },
  {
   "property": "C25",
   "status": "proved",
   "theorems": [
    "C25_reads"
   ],
   "note": ""
  },
  {
   "property": "C26",
   "status": "proved",
   "theorems": [
    "C26_lines",
    "C26_layout",
    "C26_structure",
    "C26_lexed"
   ],
   "note": ""
  },
  {
   "property": "C27",
   "status": "proved",
   "theorems": [
    "C27_final_eol",
    "C27_always_final_eol_refuted"
   ],
   "note": "C27_always_final_eol_refuted: not for a last line of blanks only"
  },
  {
   "property": "C28",
   "status": "proved",
   "theorems": [
    "C28_keyword_then_colon"
   ],
   "note": ""
  },
  {
   "property": "C29",
   "status": "proved",
   "theorems": [
    "C29_spans",
    "C29_raw_spans",
    "C29_recovery_within"
   ],
   "note": ""
  },
  {
   "property": "C30",
   "status": "proved",
   "theorems": [
    "C30_maximal_munch",
    "C30_unambiguous",
    "C30_complete",
    "C30_lex",
    "C30_token_text",
    "C30_parser"
   ],
   "note": ""
  },
  {
   "property": "C31",
   "status": "proved",
   "theorems": [
    "C31_white_space",
    "C31_resolve_span_text",
    "C31_resolve_span_text_nonascii",
    "C31_resolve_span_nonascii_refuted",
    "C31_resolve_span_blank",
    "C31_resolve_span_invalid",
    "C31_resolve_span_unknown_source",
    "C31_inline_has_no_name_refuted",
    "C31_resolve_span_cases"
   ],
   "note": "C31_resolve_span_nonascii_refuted: the text is empty if its last character is not in ASCII"
  },
  {
   "property": "C32",
   "status": "proved",
   "theorems": [
    "C32_error_source_text",
    "C32_error_source_text_blank",
    "C32_error_source_text_invalid",
    "C32_error_source_text_unknown_source",
    "C32_error_source_text_panics_iff",
    "C32_error_source_text_total_refuted"
   ],
   "note": "C32_error_source_text_total_refuted: it panics in exactly the cases of C32_error_source_text_panics_iff"
  },
  {
   "property": "C33",
   "status": "proved",
   "theorems": [
    "C33_synthetic_span_designates",
    "C33_synthetic_sources",
    "C33_synthetic_span_resolves",
    "C33_synthetic_span_resolves_blank",
    "C33_synthetic_span_nonascii",
    "C33_original_spans_kept",
    "C33_synthetic_lines_refuted",
    "C33_inline_has_no_name_refuted"
   ],
   "note": "C33_synthetic_lines_refuted: line numbers are wrong after non-ASCII fragments"
  },
  {
   "property": "C34",
   "status": "proved",
   "theorems": [
    "C34_resolve_span_never_panics"
   ],
   "note": ""
  },
  {
   "property": "C35",
   "status": "proved",
   "theorems": [
    "C35_path_equality",
    "C35_include_relative",
    "C35_include_absolute",
    "C35_absolute_iff",
    "C35_include_inline",
    "C35_include_no_directory"
   ],
   "note": ""
  },
  {
   "property": "C36",
   "status": "proved",
   "theorems": [
    "C36_sound",
    "C36_terminates",
    "C36_no_panic",
    "C36_reads",
    "C36_rejects",
    "C36_unambiguous"
   ],
   "note": ""
  },
  {
   "property": "C37",
   "status": "proved",
   "theorems": [
    "C37_lines"
   ],
   "note": ""
  },
  {
   "property": "C38",
   "status": "proved",
   "theorems": [
    "C38_tiled",
    "C38_scan",
    "C38_includes",
    "C38_complete",
    "C38_exact"
   ],
   "note": ""
  },
  {
   "property": "C39",
   "status": "proved",
   "theorems": [
    "C39_file",
    "C39_unambiguous",
    "C39_tokens_accounted_for",
    "C39_clean",
    "C39_no_syntax_error",
    "C39_parse"
   ],
   "note": ""
  },
  {
   "property": "C40",
   "status": "proved",
   "theorems": [
    "C40_nothing_set",
    "C40_files",
    "C40_parse",
    "C40_order_matters_refuted"
   ],
   "note": "C40_order_matters_refuted: with a name option in an included file the result does depend on the order"
  },
  {
   "property": "C41",
   "status": "proved",
   "theorems": [
    "C41_number"
   ],
   "note": ""
  },
  {
   "property": "C42",
   "status": "proved",
   "theorems": [
    "C42_date",
    "C42_date_only",
    "C42_time",
    "C42_time_only",
    "C42_date_panics_refuted",
    "C42_time_out_of_range_refuted"
   ],
   "note": "C42_date_panics_refuted: digits of other scripts panic"
  },
  {
   "property": "C43",
   "status": "proved",
   "theorems": [
    "C43_verbatim",
    "C43_string"
   ],
   "note": ""
  },
  {
   "property": "C44",
   "status": "proved",
   "theorems": [
    "C44_plugins"
   ],
   "note": ""
  },
  {
   "property": "C45",
   "status": "proved",
   "theorems": [
    "C45_eq_ignores_span",
    "C45_hash_agrees",
    "C45_lookup_by_text",
    "C45_insert_keeps_first_span"
   ],
   "note": ""
  },
  {
   "property": "C46",
   "status": "proved",
   "theorems": [
    "C46_read_back",
    "C46_parsed"
   ],
   "note": ""
  },
  {
   "property": "C47",
   "status": "proved",
   "theorems": [
    "C47_walk",
    "C47_own_order"
   ],
   "note": ""
  },
  {
   "property": "C48",
   "status": "proved",
   "theorems": [
    "C48_key_value",
    "C48_order_independent"
   ],
   "note": ""
  },
  {
   "property": "C49",
   "status": "proved",
   "theorems": [
    "C49_option_value",
    "C49_option_parse",
    "C49_unknown_option",
    "C49_wrong_value",
    "C49_option_panics"
   ],
   "note": ""
  },
  {
   "property": "C50",
   "status": "proved",
   "theorems": [
    "C50_success_sound",
    "C50_success_complete",
    "C50_parser_options"
   ],
   "note": ""
  },
  {
   "property": "C51",
   "status": "proved",
   "theorems": [
    "C51_tolerance_shown",
    "C51_total_price_shown",
    "C51_read_back",
    "C51_in_order",
    "C51_tolerance_refuted",
    "C51_total_price_refuted",
    "C51_quote_refuted",
    "C51_split_string_refuted"
   ],
   "note": "for directives without what is displayed otherwise than it is written: tolerances, total prices, strings with quotes or backslashes (the refuted theorems)"
  },
  {
   "property": "C52",
   "status": "proved",
   "theorems": [
    "C52_common",
    "C52_can_be_read",
    "C52_round_trip",
    "C52_names_refuted"
   ],
   "note": "C52_names_refuted: not if account types have been renamed"
  },
  {
   "property": "C53",
   "status": "proved",
   "theorems": [
    "C53_success",
    "C53_failure",
    "C53_resolved",
    "C53_missing_value_refuted"
   ],
   "note": "C53_missing_value_refuted: except the missing value of a key followed by blanks"
  },
  {
   "property": "C54",
   "status": "proved",
   "theorems": [
    "C54_drawing",
    "C54_texts",
    "C54_shown",
    "C54_points",
    "C54_written",
    "C54_written_alone",
    "C54_synthetic_texts",
    "C54_synthetic_shown",
    "C54_synthetic_written",
    "C54_synthetic_written_alone",
    "C54_inline_name_refuted",
    "C54_synthetic_name_refuted",
    "C54_synthetic_place_refuted"
   ],
   "note": "exceptions: C54_inline_name_refuted, C54_synthetic_name_refuted, C54_synthetic_place_refuted"
  },
  {
   "property": "C55",
   "status": "proved",
   "theorems": [
    "C55_built",
    "C55_built_within",
    "C55_about_element",
    "C55_display",
    "C55_told",
    "C55_directive_named"
   ],
   "note": ""
  },
  {
   "property": "C56",
   "status": "proved",
   "theorems": [
    "C56_account_type_name",
    "C56_account_name",
    "C56_key",
    "C56_tag_or_link",
    "C56_currency",
    "C56_flag_letter",
    "C56_account",
    "C56_option",
    "C56_cost",
    "C56_message_tells_why",
    "C56_report",
    "C56_one_message",
    "C56_advice",
    "C56_account_name_initial_refuted",
    "C56_render_commas_refuted",
    "C56_hint"
   ],
   "note": "exceptions: C56_account_name_initial_refuted, C56_render_commas_refuted; texts made by other crates are arbitrary"
  },
  {
   "property": "C57",
   "status": "proved",
   "theorems": [
    "C57_warnings",
    "C57_errors"
   ],
   "note": "what chumsky says of a syntax error, and its contexts, are arbitrary"
  },
  {
   "property": "C58",
   "status": "proved",
   "theorems": [
    "C58_can_be_read",
    "C58_read_back",
    "C58_in_order",
    "C58_round_trip",
    "C58_plugin_quote_refuted"
   ],
   "note": "C58_plugin_quote_refuted: not if a plugin has a quote in its name or configuration"
  },
  {
   "property": "C59",
   "status": "proved",
   "theorems": [
    "C59_token_names",
    "C59_told_apart",
    "C59_tag_sign_refuted"
   ],
   "note": "C59_tag_sign_refuted: a tag is named like a keyword; how the time crate shows a time is arbitrary"
  },
  {
   "property": "C60",
   "status": "proved",
   "theorems": [
    "C60_balances",
    "C60_program",
    "C60_failure",
    "C60_sums_fit"
   ],
   "note": "sums are assumed to be representable (C60_sums_fit: enough for that); itertools::partition as documented"
  },
  {
   "property": "C61",
   "status": "proved",
   "theorems": [
    "C61_checks",
    "C61_program",
    "C61_known_by_date",
    "C61_closed_by_date"
   ],
   "note": "sums are assumed to be representable"
  },
  {
   "property": "C62",
   "status": "proved",
   "theorems": [
    "C62_can_be_read",
    "C62_read_back",
    "C62_program",
    "C62_round_trip"
   ],
   "note": "for directives without what is displayed otherwise than it is written, as C51 and C52"
  },
  {
   "property": "C63",
   "status": "proved",
   "theorems": [
    "C63_parse",
    "C63_read",
    "C63_whole"
   ],
   "note": ""
  },
  {
   "property": "C64",
   "status": "proved",
   "theorems": [
    "C64_word",
    "C64_tokens",
    "C64_relaid",
    "C64_whole",
    "C64_first_heading_refuted",
    "C64_last_blanks_refuted"
   ],
   "note": ""
  },
  {
   "property": "C65",
   "status": "proved",
   "theorems": [
    "C65_file",
    "C65_terminates",
    "C65_panics"
   ],
   "note": ""
  },
  {
   "property": "C66",
   "status": "proved",
   "theorems": [
    "C66_elsewhere",
    "C66_bad_date",
    "C66_file",
    "C66_parse",
    "C66_next_error_refuted",
    "C66_last_refuted"
   ],
   "note": ""
  },
  {
   "property": "C67",
   "status": "proved",
   "theorems": [
    "C67_newline",
    "C67_tokens",
    "C67_parse",
    "C67_whole",
    "C67_whole_newline",
    "C67_blank_end_refuted"
   ],
   "note": ""
  },
  {
   "property": "C68",
   "status": "proved",
   "theorems": [
    "C68_nothing_left",
    "C68_includes",
    "C68_sources"
   ],
   "note": ""
  },
  {
   "property": "C69",
   "status": "proved",
   "theorems": [
    "C69_paste",
    "C69_can_be_pasted",
    "C69_rules_refuted",
    "C69_rules_first_refuted",
    "C69_documents_refuted"
   ],
   "note": ""
  },
  {
   "property": "C70",
   "status": "proved",
   "theorems": [
    "C70_results",
    "C70_place",
    "C70_prefix",
    "C70_no_repair"
   ],
   "note": ""
  },
  {
   "property": "C71",
   "status": "proved",
   "theorems": [
    "C71_says"
   ],
   "note": ""
  },
  {
   "property": "C72",
   "status": "proved",
   "theorems": [
    "C72_append",
    "C72_swap",
    "C72_text",
    "C72_rules_refuted",
    "C72_options_refuted"
   ],
   "note": ""
  },
  {
   "property": "C73",
   "status": "proved",
   "theorems": [
    "C73_delete",
    "C73_insert",
    "C73_rules_refuted",
    "C73_delete_text",
    "C73_insert_text"
   ],
   "note": ""
  },
  {
   "property": "C74",
   "status": "proved",
   "theorems": [
    "C74_tag_text",
    "C74_tag",
    "C74_meta"
   ],
   "note": ""
  },
  {
   "property": "C75",
   "status": "proved",
   "theorems": [
    "C75_permute_text",
    "C75_tied_refuted",
    "C75_swap",
    "C75_push_refuted",
    "C75_swap_text"
   ],
   "note": ""
  },
  {
   "property": "C76",
   "status": "proved",
   "theorems": [
    "C76_take",
    "C76_split",
    "C76_put",
    "C76_push_refuted",
    "C76_split_text",
    "C76_put_text"
   ],
   "note": ""
  },
  {
   "property": "C77",
   "status": "proved",
   "theorems": [
    "C77_option_delete",
    "C77_option_insert",
    "C77_plugin_delete",
    "C77_plugin_insert",
    "C77_option_delete_text",
    "C77_option_insert_text",
    "C77_plugin_delete_text",
    "C77_plugin_insert_text",
    "C77_rival_refuted",
    "C77_rule_refuted"
   ],
   "note": ""
  },
  {
   "property": "C78",
   "status": "proved",
   "theorems": [
    "C78_split",
    "C78_both",
    "C78_rules_refuted",
    "C78_lines_refuted",
    "C78_move_text"
   ],
   "note": ""
  },
  {
   "property": "C79",
   "status": "proved",
   "theorems": [
    "C79_after",
    "C79_iff",
    "C79_text",
    "C79_rules_refuted",
    "C79_options_refuted"
   ],
   "note": ""
  },
  {
   "property": "C80",
   "status": "proved",
   "theorems": [
    "C80_accounts",
    "C80_rename",
    "C80_types",
    "C80_taken_refuted"
   ],
   "note": ""
  },
  {
   "property": "C81",
   "status": "proved",
   "theorems": [
    "C81_names",
    "C81_exchange",
    "C81_merged_refuted"
   ],
   "note": ""
  },
  {
   "property": "C82",
   "status": "proved",
   "theorems": [
    "C82_dates",
    "C82_order_refuted"
   ],
   "note": ""
  },
  {
   "property": "C83",
   "status": "proved",
   "theorems": [
    "C83_all",
    "C83_strings",
    "C83_options_refuted",
    "C83_empty_refuted"
   ],
   "note": ""
  },
  {
   "property": "C84",
   "status": "proved",
   "theorems": [
    "C84_files",
    "C84_exactly",
    "C84_includes_refuted",
    "C84_order_refuted",
    "C84_words"
   ],
   "note": ""
  },
  {
   "property": "C85",
   "status": "proved",
   "theorems": [
    "C85_files",
    "C85_exactly",
    "C85_types_refuted",
    "C85_words"
   ],
   "note": ""
  },
  {
   "property": "C86",
   "status": "proved",
   "theorems": [
    "C86_numbers",
    "C86_alone",
    "C86_zero_refuted",
    "C86_words"
   ],
   "note": ""
  },
  {
   "property": "C87",
   "status": "proved",
   "theorems": [
    "C87_files",
    "C87_exactly",
    "C87_alone",
    "C87_words"
   ],
   "note": ""
  }
 ]
}