{
 "claims": [
  {
   "property": "C01",
   "status": "partial",
   "theorems": [
    "C01_consumption_bounded",
    "C01_regex_bounded_refuted",
    "C01_regex_ascii_bounded",
    "C01_regex_bytes"
   ],
   "note": "Proved for the whole closure without regex; refuted for regex on non-ASCII text (byte length), proved for regex on ASCII text."
  },
  {
   "property": "C02",
   "status": "proved",
   "theorems": [
    "C02_no_panic",
    "C02_regex_panics_refuted"
   ],
   "note": ""
  },
  {
   "property": "C03",
   "status": "proved",
   "theorems": [
    "C03_or_second",
    "C03_or_first",
    "C03_or_assoc",
    "C03_or_left_identity",
    "C03_or_left_zero",
    "C03_or_right_identity",
    "C03_or_idempotent",
    "C03_failed_lazy"
   ],
   "note": ""
  },
  {
   "property": "C04",
   "status": "proved",
   "theorems": [
    "C04_attempt_success",
    "C04_attempt_failure",
    "C04_attempt_or",
    "C04_attempt_idempotent"
   ],
   "note": ""
  },
  {
   "property": "C05",
   "status": "proved",
   "theorems": [
    "C05_left_identity",
    "C05_right_identity",
    "C05_associativity"
   ],
   "note": ""
  },
  {
   "property": "C06",
   "status": "proved",
   "theorems": [
    "C06_commit_after_consumption",
    "C06_no_consumption_keeps_status"
   ],
   "note": ""
  },
  {
   "property": "C07",
   "status": "partial",
   "theorems": [
    "C07_and_then_commits_refuted",
    "C07_and_then_partial",
    "C07_skip_is_projection"
   ],
   "note": "False of the code: + does not commit after consumption. Proved: equal to flat_map up to the commit status of failures."
  },
  {
   "property": "C08",
   "status": "proved",
   "theorems": [
    "C08_map_identity",
    "C08_map_composition",
    "C08_map_flat_map",
    "C08_map_keeps_shape"
   ],
   "note": ""
  },
  {
   "property": "C09",
   "status": "proved",
   "theorems": [
    "C09_filter_success",
    "C09_filter_reject_uncommitted",
    "C09_filter_passes_failure",
    "C09_filter_not_complement",
    "C09_pp_filter_success",
    "C09_pp_filter_reject"
   ],
   "note": ""
  },
  {
   "property": "C10",
   "status": "proved",
   "theorems": [
    "C10_lookahead_consumes_nothing",
    "C10_peek",
    "C10_exists",
    "C10_not",
    "C10_not_uncommitted"
   ],
   "note": ""
  },
  {
   "property": "C11",
   "status": "proved",
   "theorems": [
    "C11_end",
    "C11_whole_input"
   ],
   "note": ""
  },
  {
   "property": "C12",
   "status": "proved",
   "theorems": [
    "C12_many0_maximal",
    "C12_many0_never_fails",
    "C12_many1_maximal",
    "C12_many1_fails_iff"
   ],
   "note": ""
  },
  {
   "property": "C13",
   "status": "partial",
   "theorems": [
    "C13_range_respected_refuted",
    "C13_repeat_exact_partial",
    "C13_repeat_sep_in_bounds_partial",
    "C13_repeat_none_allowed",
    "C13_count_exact",
    "C13_range_forms_partial"
   ],
   "note": "False as stated: a range that allows no repetition still runs the parser once and returns one value. Proved: exact behaviour and bounds for ranges that allow one."
  },
  {
   "property": "C14",
   "status": "partial",
   "theorems": [
    "C14_alternation_refuted",
    "C14_many_n_m_sep_exact_partial",
    "C14_count_sep_exact",
    "C14_many1_sep_exact_partial",
    "C14_many0_sep_exact_partial"
   ],
   "note": "False as stated: a trailing separator is consumed. Proved: exact behaviour, including the optional trailing separator."
  },
  {
   "property": "C15",
   "status": "proved",
   "theorems": [
    "C15_terminates",
    "C15_terminates_nosep",
    "C15_empty_match_diverges",
    "C15_budget_adequate"
   ],
   "note": ""
  },
  {
   "property": "C16",
   "status": "proved",
   "theorems": [
    "C16_chain_left1_fold",
    "C16_chain_left1_failure",
    "C16_dangling_operator",
    "C16_budget_adequate",
    "C16_chain_left0"
   ],
   "note": ""
  },
  {
   "property": "C17",
   "status": "partial",
   "theorems": [
    "C17_right_assoc_refuted",
    "C17_rest_right1",
    "C17_chain_right1_is_left",
    "C17_right_assoc_partial",
    "C17_chain0"
   ],
   "note": "False as stated: chain_right1 folds to the left. Proved: it equals chain_left1, and the right fold agrees for associative operators."
  },
  {
   "property": "C18",
   "status": "proved",
   "theorems": [
    "C18_literal_success",
    "C18_literal_failure"
   ],
   "note": ""
  },
  {
   "property": "C19",
   "status": "proved",
   "theorems": [
    "C19_tag_no_case"
   ],
   "note": ""
  },
  {
   "property": "C20",
   "status": "partial",
   "theorems": [
    "C20_classes",
    "C20_predicates",
    "C20_digit_1_9",
    "C20_oct_digit_refuted",
    "C20_oct_digit_partial",
    "C20_non_zero_digit_refuted",
    "C20_ascii_u8",
    "C20_any"
   ],
   "note": "False for two predicates: the octal class accepts '8', and is_ascii_digit_non_zero is true for every element but '0'. All other classes are proved."
  },
  {
   "property": "C21",
   "status": "proved",
   "theorems": [
    "C21_sets",
    "C21_ranges"
   ],
   "note": ""
  },
  {
   "property": "C22",
   "status": "proved",
   "theorems": [
    "C22_take",
    "C22_skip",
    "C22_take_join"
   ],
   "note": ""
  },
  {
   "property": "C23",
   "status": "partial",
   "theorems": [
    "C23_longest_prefix_refuted",
    "C23_not_a_prefix_refuted",
    "C23_take_while_exact",
    "C23_longest_prefix_partial"
   ],
   "note": "False as stated: the take_while parsers count every matching element of the rest of the input. Proved: their exact behaviour, and the longest-prefix reading when no matching element follows the prefix."
  },
  {
   "property": "C24",
   "status": "proved",
   "theorems": [
    "C24_take_till_hit",
    "C24_take_till_miss",
    "C24_cases"
   ],
   "note": ""
  },
  {
   "property": "C25",
   "status": "proved",
   "theorems": [
    "C25_collect",
    "C25_collect_sequence"
   ],
   "note": ""
  },
  {
   "property": "C26",
   "status": "proved",
   "theorems": [
    "C26_offsets"
   ],
   "note": ""
  },
  {
   "property": "C27",
   "status": "proved",
   "theorems": [
    "C27_map_res",
    "C27_map_opt"
   ],
   "note": ""
  },
  {
   "property": "C28",
   "status": "proved",
   "theorems": [
    "C28_decorators_keep_result",
    "C28_name_errors"
   ],
   "note": ""
  },
  {
   "property": "C29",
   "status": "partial",
   "theorems": [
    "C29_input_panics_refuted",
    "C29_offending_slice_refuted",
    "C29_element_partial",
    "C29_wrapped"
   ],
   "note": "False as stated: ParseError::input panics for a mismatch on the last element. Proved: the exact domain for the element parsers and end()."
  },
  {
   "property": "C30",
   "status": "partial",
   "theorems": [
    "C30_transparent_refuted",
    "C30_transparent_partial",
    "C30_recursive_cache_panics_refuted"
   ],
   "note": "False as stated: the cache key does not identify input and position. Proved: the cache is transparent for histories whose equal keys mean equal input and position."
  },
  {
   "property": "C31",
   "status": "proved",
   "theorems": [
    "C31_position_independent",
    "C31_offsets_excluded"
   ],
   "note": ""
  },
  {
   "property": "C32",
   "status": "proved",
   "theorems": [
    "C32_skip_surround",
    "C32_discard"
   ],
   "note": ""
  },
  {
   "property": "C33",
   "status": "proved",
   "theorems": [
    "C33_opt"
   ],
   "note": ""
  },
  {
   "property": "C34",
   "status": "proved",
   "theorems": [
    "C34_literal_then",
    "C34_literal_join"
   ],
   "note": ""
  },
  {
   "property": "C35",
   "status": "proved",
   "theorems": [
    "C35_accepted_text",
    "C35_values_in_range",
    "C35_parse_returns"
   ],
   "note": ""
  },
  {
   "property": "C36",
   "status": "partial",
   "theorems": [
    "C36_last_in_range_refuted",
    "C36_field_membership_partial",
    "C36_inner_last_never",
    "C36_accepted_shapes"
   ],
   "note": "False as stated: L as an end point of a range or as a step (possible in the day-of-week field, e.g. MON-L) makes the item match nothing. Proved exactly for every other field of the grammar; also proved that an item with such an L never matches, and that the other four fields of an accepted text never contain one."
  },
  {
   "property": "C37",
   "status": "partial",
   "theorems": [
    "C37_weekday_refuted",
    "C37_eval_exact",
    "C37_eval_partial",
    "C37_month_length"
   ],
   "note": "False as stated: the day-of-week field is compared with the minute (refuted in both directions). Proved: the exact meaning with that comparison, and the intended meaning whenever the fifth field is *; month lengths are right for every year."
  },
  {
   "property": "C38",
   "status": "partial",
   "theorems": [
    "C38_eval_panics_refuted",
    "C38_eval_returns_partial"
   ],
   "note": "False as stated: a zero step in the minute or hour field panics (step_by(0)). Proved: nothing else can."
  },
  {
   "property": "C39",
   "status": "proved",
   "theorems": [
    "C39_iterator_order"
   ],
   "note": ""
  },
  {
   "property": "C40",
   "status": "partial",
   "theorems": [
    "C40_end_refuted",
    "C40_end_partial",
    "C40_overshoot_iff"
   ],
   "note": "False as stated: the end is checked before the search, so the last result may lie beyond it. Proved: all results but the last are within the end, no match up to the end is missed, and exactly when a call overshoots."
  },
  {
   "property": "C41",
   "status": "partial",
   "theorems": [
    "C41_terminates_iff_refuted",
    "C41_terminates_iff",
    "C41_returns_iff_match",
    "C41_runs_on_iff",
    "C41_terminates_total",
    "C41_february_30_never",
    "C41_inext_ends",
    "C41_fuel_irrelevant"
   ],
   "note": "False as stated only because a step of zero in a list can panic before a matching minute is reached (refuted with 0 5,1-3/0 * * *). Proved for every specification: next() returns iff some minute matches and no minute before it panics, it then returns the first match, and over unbounded time it runs for ever iff every minute is refused. With the bounded dates of chrono a search without match ends in the overflow panic."
  },
  {
   "property": "C42",
   "status": "proved",
   "theorems": [
    "C42_print_normalises_port",
    "C42_print_is_prefix",
    "C42_leading_zero_refuted"
   ],
   "note": "The two provisos of the statement are used; the leading-zero proviso is shown to be needed."
  },
  {
   "property": "C43",
   "status": "partial",
   "theorems": [
    "C43_whole_text_refuted",
    "C43_prefix_is_uri_partial",
    "C43_accepted_iff_partial"
   ],
   "note": "False as stated: the rest of the text is ignored. Proved: the consumed prefix is a URI that spells the result (IPv6 alternatives 4-9 under the assumption that the standard library reads IPv6 texts correctly), and exactly the texts that start with an optional scheme and a colon are accepted."
  },
  {
   "property": "C44",
   "status": "partial",
   "theorems": [
    "C44_port_value_partial",
    "C44_port_in_range",
    "C44_bad_port_dropped",
    "C44_out_of_range_rejected_refuted"
   ],
   "note": "False as stated: an empty or out-of-range port is dropped together with all that follows it. Proved: that this happens for every such port; a returned port is the value of the digits, at most 65535; a port in range is returned."
  },
  {
   "property": "C45",
   "status": "proved",
   "theorems": [
    "C45_octet_longest"
   ],
   "note": ""
  },
  {
   "property": "C46",
   "status": "proved",
   "theorems": [
    "C46_params",
    "C46_add"
   ],
   "note": ""
  },
  {
   "property": "C57",
   "status": "partial",
   "theorems": [
    "C57_grammar_accepted",
    "C57_print_read",
    "C57_reg_name_cut_refuted",
    "C118_language"
   ],
   "note": "C118_language gives the exact language. The first two: Proved for hosts that are not IPv6 literals nor registered names starting with an IPv4 address, and paths without authority that do not start with //; the second exclusion is shown to be needed, the first is lifted in C103."
  },
  {
   "property": "C58",
   "status": "partial",
   "theorems": [
    "C58_ipv6_value_partial",
    "C58_all_ipv6_accepted_refuted"
   ],
   "note": "The value half is proved relative to the soundness of the standard library's IPv6 reader, which alternatives 4-9 call. The completeness half is false: seven groups followed by '::' are rejected. C102 has the exact language."
  },
  {
   "property": "C47",
   "status": "proved",
   "theorems": [
    "C47_documents_accepted",
    "C47_print_then_parse"
   ],
   "note": "f64::from_str is an arbitrary function that reads the printed numbers back."
  },
  {
   "property": "C48",
   "status": "partial",
   "theorems": [
    "C48_only_json_refuted",
    "C48_accepts_exactly_partial",
    "C48_always_returns",
    "C48_unambiguous"
   ],
   "note": "False as stated: a comma after the last element or member and raw control characters in strings are accepted. Proved: nothing else is (accepted iff in the grammar with these two liberties), the value is the one spelled, and the parser always returns."
  },
  {
   "property": "C59",
   "status": "proved",
   "theorems": [
    "C59_last_member_wins"
   ],
   "note": ""
  },
  {
   "property": "C60",
   "status": "proved",
   "theorems": [
    "C60_strings_are_utf8",
    "C60_read_print_read",
    "C60_surrogates"
   ],
   "note": ""
  },
  {
   "property": "C54",
   "status": "partial",
   "theorems": [
    "C54_params_bound_refuted",
    "C54_arguments_ignored_partial",
    "C54_call_runs_body",
    "C54_too_few_arguments"
   ],
   "note": "False as stated: the parameters are inserted into a clone that is dropped. Proved: the argument values never matter, the body runs in an empty frame on top of the caller's variables, and too few arguments panic."
  },
  {
   "property": "C55",
   "status": "proved",
   "theorems": [
    "C55_call_preserves_env",
    "C55_labelled_call_preserves_env",
    "C55_only_assigned_change"
   ],
   "note": "The environment is the one after the evaluation of the arguments, which is the one before the call if no argument contains an assignment."
  },
  {
   "property": "C56",
   "status": "proved",
   "theorems": [
    "C56_refines_semantics",
    "C56_deterministic",
    "C56_fuel_irrelevant",
    "C56_diverges",
    "C56_assignment_visible"
   ],
   "note": ""
  },
  {
   "property": "C61",
   "status": "partial",
   "theorems": [
    "C61_assignment_sets_partial",
    "C61_outer_assignment_panics",
    "C61_assignment_sets_refuted"
   ],
   "note": "False as stated: assigning a variable of an enclosing frame panics. Proved: this always happens, and the statement for variables of the innermost frame and new variables."
  },
  {
   "property": "C62",
   "status": "partial",
   "theorems": [
    "C62_globals_bound_refuted",
    "C62_globals_not_bound_partial"
   ],
   "note": "False as stated: the value is inserted into a clone that is dropped. Proved: no global is ever bound."
  },
  {
   "property": "C63",
   "status": "partial",
   "theorems": [
    "C63_interpretable_refuted",
    "C63_panics_only_for_a_reason_partial"
   ],
   "note": "False as stated: true, false, array literals and empty blocks panic. Proved: these and the listed faults of the program are the only causes of a panic."
  },
  {
   "property": "C64",
   "status": "partial",
   "theorems": [
    "C64_short_circuit_refuted",
    "C64_second_operand_always_evaluated",
    "C64_and_or_value_partial"
   ],
   "note": "False as stated: both operands are always evaluated. Proved: that, and that the value is right."
  },
  {
   "property": "C65",
   "status": "proved",
   "theorems": [
    "C65_for_loop",
    "C65_for_prints_range"
   ],
   "note": "For literal bounds and a loop variable that is new or in the innermost frame (otherwise the loop panics by C61)."
  },
  {
   "property": "C66",
   "status": "proved",
   "theorems": [
    "C66_integers_in_range"
   ],
   "note": ""
  },
  {
   "property": "C49",
   "status": "partial",
   "theorems": [
    "C49_first_wins",
    "C49_later_wins_refuted",
    "C49_braces_later_wins_partial"
   ],
   "note": "False as stated: at top level the first scalar wins, for every key and values. Proved: that, and that inside braces the last value wins."
  },
  {
   "property": "C50",
   "status": "proved",
   "theorems": [
    "C50_keywise",
    "C50_identity",
    "C50_associative",
    "C50_associative_schema",
    "C50_leaves",
    "C50_mixed_not_associative"
   ],
   "note": ""
  },
  {
   "property": "C51",
   "status": "partial",
   "theorems": [
    "C51_lookup_partial",
    "C51_has_path",
    "C51_lookup_total_refuted",
    "C51_unique",
    "C51_right_if_returns",
    "C51_every_path",
    "C51_returns_partial",
    "C51_panics"
   ],
   "note": "False only in that a lookup may panic (the empty path, an empty last component, paths that begin with a bracket). Proved: on every path, whenever the lookup returns, it returns the value reached by descending; it returns for all components without brackets, quotes, backslashes and ends of lines that do not begin with layout; has_path agrees with get_value on every path."
  },
  {
   "property": "C52",
   "status": "partial",
   "theorems": [
    "C52_no_panic_refuted",
    "C52_plain_loads_partial",
    "C52_syntax_error",
    "C52_syntax_error_refuted"
   ],
   "note": "False as stated: the empty text and 1e5 panic, with every oracle, and so do syntax errors behind more than half of the text, because the message slices the input out of bounds. Proved: texts that parse to reference-free values load, and exactly which syntax errors are reported."
  },
  {
   "property": "C53",
   "status": "partial",
   "theorems": [
    "C53_sign_ignored",
    "C53_all_unsigned",
    "C53_sign_refuted"
   ],
   "note": "False as stated: the sign is dropped. Proved: every number of every document is the value of an unsigned numeral."
  },
  {
   "property": "C67",
   "status": "proved",
   "theorems": [
    "C67_parser_returns"
   ],
   "note": ""
  },
  {
   "property": "C68",
   "status": "partial",
   "theorems": [
    "C68_resolution_returns_refuted",
    "C68_self_reference",
    "C68_returns_partial",
    "C68_returns_iff",
    "C68_cycle_never_loads"
   ],
   "note": "False as stated: a key that refers to itself makes resolution recurse forever. Proved: a text without includes loads exactly if every needed reference is found (or falls back) and no reference needs itself, directly or not."
  },
  {
   "property": "C69",
   "status": "partial",
   "theorems": [
    "C69_single_dotted_key_partial",
    "C69_dotted_keys_partial",
    "C69_document_partial",
    "C69_siblings_lost",
    "C69_nested_not_expanded",
    "C69_dotted_keys_refuted"
   ],
   "note": "False as stated: beside a dotted key the undotted keys disappear, and below an undotted key dotted keys are not expanded. Proved: both in general, and the statement for any number of dotted keys of which none is a prefix of another."
  },
  {
   "property": "C70",
   "status": "partial",
   "theorems": [
    "C70_own_key_refuted",
    "C70_own_key_partial",
    "C70_swallowed"
   ],
   "note": "False as stated: a number swallows the first letters of the next key if they spell a unit. Proved: this happens at every such place of a document; and without it each line of the texts of C99 defines its own key."
  },
  {
   "property": "C71",
   "status": "partial",
   "theorems": [
    "C71_units",
    "C71_long_units_refuted",
    "C71_conversion_exact",
    "C71_conversion_overflow"
   ],
   "note": "False as stated: of spelt-out units only a prefix is read. Proved: exactly which words are read, and that the conversion is exact up to overflow."
  },
  {
   "property": "C72",
   "status": "partial",
   "theorems": [
    "C72_optional_after_one_partial",
    "C72_optional_keeps_previous_refuted",
    "C72_exact"
   ],
   "note": "False as stated: after two earlier values the first of them comes back. Proved for one earlier value, and for any number of them that the value before the last comes back."
  },
  {
   "property": "C73",
   "status": "proved",
   "theorems": [
    "C73_chain",
    "C73_braces_keep_all"
   ],
   "note": "For values other than references, whose previous value is filled in when they are added to the chain."
  },
  {
   "property": "C74",
   "status": "partial",
   "theorems": [
    "C74_quoted_name",
    "C74_missing_file_panics",
    "C74_include_refuted"
   ],
   "note": "False as stated: the quotes are part of the name of the file that is opened."
  },
  {
   "property": "C75",
   "status": "proved",
   "theorems": [
    "C75_unchanged"
   ],
   "note": ""
  },
  {
   "property": "C76",
   "status": "partial",
   "theorems": [
    "C76_merge_order",
    "C76_expansion_order_refuted"
   ],
   "note": "Proved for merging; false for the expansion of dotted keys."
  },
  {
   "property": "C77",
   "status": "partial",
   "theorems": [
    "C77_no_reference_left_partial",
    "C77_exact",
    "C77_no_reference_left_refuted"
   ],
   "note": "False as stated: an optional reference after a reference brings the unresolved one back. Proved when no reference has a previous value; and for every text without includes and enumerations exactly when nothing is left: when each needed reference that falls back finds a previous value without references."
  },
  {
   "property": "C78",
   "status": "proved",
   "theorems": [
    "C78_grammar",
    "C78_returns",
    "C78_depth",
    "C78_unambiguous"
   ],
   "note": "Assumes that the regex class \\d contains exactly the ASCII digits among ASCII characters and that Decimal::from_str rejects non-ASCII text."
  },
  {
   "property": "C79",
   "status": "partial",
   "theorems": [
    "C79_layout_refuted",
    "C79_layout_partial",
    "C79_operator_layout"
   ],
   "note": "False as stated: white space before a leading number, behind a trailing number or between a sign and a number is rejected. Proved around binary operators and parentheses."
  },
  {
   "property": "C80",
   "status": "proved",
   "theorems": [
    "C80_value"
   ],
   "note": "The operations of Decimal are arbitrary partial functions; same assumptions as C78."
  },
  {
   "property": "C81",
   "status": "proved",
   "theorems": [
    "C81_returns",
    "C81_depth"
   ],
   "note": "Assumes that the regex class \\d contains exactly the ASCII digits among ASCII characters. .cache() is left out here, see C111."
  },
  {
   "property": "C82",
   "status": "proved",
   "theorems": [
    "C82_program_sound",
    "C82_lines_sound",
    "C82_expression_sound"
   ],
   "note": "Same assumption as C81."
  },
  {
   "property": "C83",
   "status": "proved",
   "theorems": [
    "C83_strict_is_part",
    "C83_program_complete",
    "C83_lines_complete",
    "C83_expression_complete",
    "C83_unambiguous"
   ],
   "note": "Same assumption as C81. The strict grammar leaves out what C85 and C86 are about."
  },
  {
   "property": "C84",
   "status": "partial",
   "theorems": [
    "C84_errors_reported_refuted",
    "C84_errors_reported_partial",
    "C84_program_never_fails",
    "C84_first_error"
   ],
   "note": "False as stated: program accepts every text and drops everything from the first error on. Proved for lines; for program, what is dropped never begins with a definition."
  },
  {
   "property": "C85",
   "status": "partial",
   "theorems": [
    "C85_names_refuted",
    "C85_names_partial",
    "C85_names_with_f_rejected"
   ],
   "note": "False as stated: names starting with f are rejected, names starting with true are cut. Proved for all other names."
  },
  {
   "property": "C86",
   "status": "partial",
   "theorems": [
    "C86_whole_words_refuted",
    "C86_whole_words_partial"
   ],
   "note": "False as stated: elsewhere = 2 after an if is read as else where = 2. Proved for assignments at the start of a statement."
  },
  {
   "property": "C87",
   "status": "partial",
   "theorems": [
    "C87_usual_precedence_refuted",
    "C87_usual_precedence_partial",
    "C87_two_operators",
    "C87_usual_reading"
   ],
   "note": "False as stated: && and || have the level of comparisons and % has its own. The reading of all pairs is given by C87_two_operators."
  },
  {
   "property": "C88",
   "status": "proved",
   "theorems": [
    "C88_program_round_trip",
    "C88_lines_round_trip",
    "C88_expression_round_trip",
    "C88_trees",
    "C88_print_parsed"
   ],
   "note": "Same assumption as C81."
  },
  {
   "property": "C89",
   "status": "proved",
   "theorems": [
    "C89_fizz_buzz",
    "C89_arithmetic"
   ],
   "note": "Same assumption as C81. println! is modelled by the list of values printed."
  },
  {
   "property": "C90",
   "status": "proved",
   "theorems": [
    "C90_same_verdict",
    "C90_bytes_are_text",
    "C90_invalid_rejected"
   ],
   "note": "f64::from_str is an argument, the same for both parsers."
  },
  {
   "property": "C91",
   "status": "proved",
   "theorems": [
    "C91_accepts_exactly",
    "C91_rejects",
    "C91_unambiguous"
   ],
   "note": "The lists of the notation may end in a comma, as the code has it."
  },
  {
   "property": "C92",
   "status": "partial",
   "theorems": [
    "C92_upcoming_partial",
    "C92_not_before_start_refuted",
    "C92_not_before_start_partial"
   ],
   "note": "False as stated for weekdays (C37) and steps 0 (C38), and a start with a fraction of a millisecond is rounded down. Proved for weekday *, no step 0; chrono's Utc is modelled by the proleptic Gregorian calendar."
  },
  {
   "property": "C93",
   "status": "proved",
   "theorems": [
    "C93_satisfiable_returns",
    "C93_unsatisfiable_panics"
   ],
   "note": "chrono's Utc as in C92; the end of representable time is a parameter."
  },
  {
   "property": "C94",
   "status": "partial",
   "theorems": [
    "C94_components_partial",
    "C94_components_std",
    "C94_authority_refuted"
   ],
   "note": "False as stated for \"//\" with an empty host: file:///etc/passwd has no authority and the path ///etc/passwd. Proved for the other accepted texts, for any standard library IPv6 parser that reads only RFC 4291 texts, and for the one of UriStd.v without assumption."
  },
  {
   "property": "C95",
   "status": "partial",
   "theorems": [
    "C95_same_value_partial",
    "C95_environment_partial",
    "C95_values_kept_partial",
    "C95_through_reference_refuted"
   ],
   "note": "False as stated: the path of a reference does not lead through other references (panic). Proved for paths that lead to a value of the text, without includes and without optional references that fall back (C72)."
  },
  {
   "property": "C96",
   "status": "partial",
   "theorems": [
    "C96_rules",
    "C96_path",
    "C96_path_accepts",
    "C96_kinds_refuted",
    "C96_reserved"
   ],
   "note": "The rules and classes are proved in full. False of path: it never uses path-absolute and path-noscheme, so it returns only rootless and abempty paths."
  },
  {
   "property": "C97",
   "status": "partial",
   "theorems": [
    "C97_text_appended_partial",
    "C97_empty_refuted",
    "C97_with_parts_refuted",
    "C97_to_absolute_refuted",
    "C97_edit_path",
    "C97_edit_uri_partial",
    "C97_edit_uri_refuted",
    "C97_conversions"
   ],
   "note": "False as stated: the empty path ignores what is added, with_parts adds, and an added segment can become the authority. Proved for paths and for URIs outside these cases."
  },
  {
   "property": "C98",
   "status": "partial",
   "theorems": [
    "C98_uri_without_fragment",
    "C98_sound_partial",
    "C98_complete",
    "C98_scheme_refuted"
   ],
   "note": "False as stated: the scheme is optional. The rest is proved; soundness for a standard library IPv6 parser that reads only RFC 4291 texts, completeness without IPv6 hosts and for plain_uri (C57). C103 lifts both restrictions about IPv6."
  },
  {
   "property": "C99",
   "status": "partial",
   "theorems": [
    "C99_documents_read_partial",
    "C99_unambiguous",
    "C99_comment_refuted",
    "C99_braces_refuted",
    "C99_notation_refuted"
   ],
   "note": "Proved for all documents of the grammar in HoconSpec.v, whose side conditions marked (!) are not part of HOCON. False without them: comments after unquoted strings, arrays in a braced root, commas at the root, keys with digits and other notation are misread or rejected."
  },
  {
   "property": "C100",
   "status": "partial",
   "theorems": [
    "C100_round_trip_partial",
    "C100_reload_partial",
    "C100_round_trip_refuted"
   ],
   "note": "False in general: arrays in objects, empty strings, strings with quotes or brackets and negative numbers do not read back. Proved for objects without arrays and arrays without array after object, with legible strings and numbers; Decimal printing is an arbitrary function."
  },
  {
   "property": "C101",
   "status": "partial",
   "theorems": [
    "C101_json_read_partial",
    "C101_json_refuted"
   ],
   "note": "False in general: arrays after objects in arrays and empty strings are rejected, signs are lost. Proved for JSON in which no array contains an object, numbers are unsigned and strings are plain."
  },
  {
   "property": "C102",
   "status": "proved",
   "theorems": [
    "C102_std_reads_rfc4291",
    "C102_text_denotes_one",
    "C102_address_exact",
    "C102_address_sound",
    "C102_seven_refused",
    "C102_print_read"
   ],
   "note": "std's Ipv6Addr::from_str and Display are modelled from their published source (UriStd.v), which is not in the repository."
  },
  {
   "property": "C103",
   "status": "proved",
   "theorems": [
    "C103_consumed_is_uri",
    "C103_grammar_accepted",
    "C103_print_read",
    "C103_exact",
    "C103_absolute_exact"
   ],
   "note": "As C102; the two provisos are the plain_uri of C57."
  },
  {
   "property": "C104",
   "status": "proved",
   "theorems": [
    "C104_char_exact",
    "C104_always_returns",
    "C104_same_as_example",
    "C104_main"
   ],
   "note": "The .cache() of the readers is left out, see C111."
  },
  {
   "property": "C105",
   "status": "partial",
   "theorems": [
    "C105_same_refuted",
    "C105_byte_exact_partial",
    "C105_byte_returns",
    "C105_same_without_escapes_partial",
    "C105_numbers_read",
    "C105_byte_returns_f64",
    "C105_byte_exact_f64_partial"
   ],
   "note": "False: the byte reader rejects every unicode escape, so the benchmarked function panics, and leaves the other escapes undecoded. Proved: the exact language and values it reads, and that on UTF-8 texts without backslashes it reads the same values, provided f64::from_str reads every JSON number; the model of f64::from_str in F64.v does."
  },
  {
   "property": "C106",
   "status": "partial",
   "theorems": [
    "C106_last_december_panics",
    "C106_eval_returns_refuted",
    "C106_eval_elsewhere_partial",
    "C106_next",
    "C106_schedule"
   ],
   "note": "False: in the last December of chrono's calendar (year 262142) every evaluation panics, because the length of a month is computed from the first day of the next. Proved: elsewhere the limit changes nothing, and exactly which calls of the iterator panic."
  },
  {
   "property": "C107",
   "status": "proved",
   "theorems": [
    "C107_program",
    "C107_no_main"
   ],
   "note": ""
  },
  {
   "property": "C108",
   "status": "proved",
   "theorems": [
    "C108_sound",
    "C108_loaded",
    "C108_brackets"
   ],
   "note": "The grammar (HoconText.v) is that of the code, looser than HOCON in what a string may contain; the sign of a number is dropped. It allows several readings of some texts; the parsers return one of them (C99 says which for the documents of HoconSpec.v)."
  },
  {
   "property": "C109",
   "status": "partial",
   "theorems": [
    "C109_std_rounds_down",
    "C109_std_whole_partial",
    "C109_std_exact_refuted",
    "C109_chrono",
    "C109_document"
   ],
   "note": "False: the fraction of the number is dropped before the unit is applied (1.5 s lasts 1 s). Proved: the result is the largest whole number of units that is not longer, exact for whole numbers; exactly which chrono conversions panic; and the duration read from a document, exact if and only if the digits after the point are zeros. rust_decimal is modelled for numbers of up to 28 digits."
  },
  {
   "property": "C110",
   "status": "partial",
   "theorems": [
    "C110_std_partial",
    "C110_std_refuted",
    "C110_chrono_partial",
    "C110_chrono_panics",
    "C110_chrono_refuted"
   ],
   "note": "False: a std duration of 2^64 nanoseconds or more does not come back, and the conversion of a chrono duration outside 64 bits of nanoseconds panics. Proved: all other durations come back."
  },
  {
   "property": "C111",
   "status": "proved",
   "theorems": [
    "C111_cron",
    "C111_toys_program",
    "C111_toys_lines",
    "C111_bench"
   ],
   "note": "For every function that gives the addresses of the parse states. Justifies leaving the caches out in the models of the three grammars."
  },
  {
   "property": "C112",
   "status": "partial",
   "theorems": [
    "C112_order",
    "C112_equal_refuted",
    "C112_empty_refuted",
    "C112_equal_partial",
    "C112_parsed"
   ],
   "note": "False: the order compares the printed texts, so unequal queries can compare as equal (a key a=b without value, and the key a with the value b). Proved: the order is the total order of the texts, and it agrees with equality for nonempty queries without = and & in keys and & in values, which parsed queries are."
  },
  {
   "property": "C113",
   "status": "partial",
   "theorems": [
    "C113_chain_added",
    "C113_value_dropped",
    "C113_keeps_both_refuted",
    "C113_objects",
    "C113_arrays",
    "C113_contains"
   ],
   "note": "False: combining with a value that is not a chain drops that value. Proved: a chain is added in order; objects key by key; arrays joined; contains."
  },
  {
   "property": "C114",
   "status": "proved",
   "theorems": [
    "C114_exact",
    "C114_otherwise_fails"
   ],
   "note": ""
  },
  {
   "property": "C115",
   "status": "partial",
   "theorems": [
    "C115_signed",
    "C115_unsigned_partial",
    "C115_unsigned_refuted",
    "C115_comes_back",
    "C115_from_panics",
    "C115_from_returns_refuted",
    "C115_document"
   ],
   "note": "False: a decimal with a minus sign that is rounded to zero (-0.5) is refused by the unsigned types, and From<i128> and From<u128> panic from 2^96 on. Proved: everything else; also for numbers of up to 28 digits written in a document. rust_decimal and num_traits are modelled from their documentation."
  },
  {
   "property": "C116",
   "status": "proved",
   "theorems": [
    "C116_typed_expression",
    "C116_fails_panics",
    "C116_never_panics",
    "C116_typed_program",
    "C116_typed_globals"
   ],
   "note": "The types (ToysTypes.v) follow the dynamic scopes that the interpreter has."
  },
  {
   "property": "C117",
   "status": "partial",
   "theorems": [
    "C117_basic",
    "C117_parts",
    "C117_paths",
    "C117_query",
    "C117_groups",
    "C117_addresses",
    "C117_address",
    "C117_names",
    "C117_hocon",
    "C117_host_exact",
    "C117_authority_exact",
    "C117_hier_exact",
    "C117_uri_exact",
    "C117_host_refuted",
    "C117_authority_refuted",
    "C117_hier_refuted",
    "C117_uri_refuted"
   ],
   "note": "False for the tests of host, authority, hier_part and uri: they fail on a generated name that starts with an IPv4 address without being one (1.2.3.4a), and, as the exact theorems say, on nothing else. The other tests pass on every generated text. Generators are read as the sets of their values."
  },
  {
   "property": "C118",
   "status": "proved",
   "theorems": [
    "C118_language"
   ],
   "note": ""
  },
  {
   "property": "C119",
   "status": "partial",
   "theorems": [
    "C119_assembled",
    "C119_read_to_the_end",
    "C119_every_uri_refuted"
   ],
   "note": "False: of_absolute and of_no_scheme paths, paths without slash after an authority, empty queries, names that start with an IPv4 address and paths that look like an authority do not come back. C119_assembled says exactly which URIs do: those with well-formed parts that keep apart."
  },
  {
   "property": "C120",
   "status": "partial",
   "theorems": [
    "C120_placed",
    "C120_positions",
    "C120_text",
    "C120_inside_refuted",
    "C120_from_start_refuted",
    "C120_one_place_refuted"
   ],
   "note": "False: a test of an element at the end of the input names the position after the end, not names the element before its start, and a missing digit is named two places apart by elm_digit and by elm_digit.many1(). Proved: positions lie between the index before the start and one past the end and do not go back from the outside in; the carried text is what is left at the place of the failure, so that the place can be computed from it; the named position is the index before that place or that place plus the reported length."
  },
  {
   "property": "C121",
   "status": "partial",
   "theorems": [
    "C121_left",
    "C121_used",
    "C121_again",
    "C121_again_refuted"
   ],
   "note": "False: the variables of main stay, and a function that assigns a variable of this name panics in the second run. Proved: the variables and functions a run leaves; a program that names none of the variables and calls only its own or unknown functions behaves as on a new interpreter (initialisers of globals without calls); a program whose main assigns nothing can be run again."
  },
  {
   "property": "C122",
   "status": "partial",
   "theorems": [
    "C122_grouping",
    "C122_common_beginning",
    "C122_common_beginning_refuted",
    "C122_common_end",
    "C122_common_end_refuted",
    "C122_words",
    "C122_unroll",
    "C122_twice",
    "C122_counts",
    "C122_filters",
    "C122_classes"
   ],
   "note": "False: a common end can not be taken out (the first alternative that matches is final), and with flat_map not even a common beginning (the first alternative commits). Proved: the other laws; what is accepted with a common end taken out is accepted without."
  },
  {
   "property": "C123",
   "status": "partial",
   "theorems": [
    "C123_read",
    "C123_nothing_else",
    "C123_lines_rejected",
    "C123_loads_iff",
    "C123_merge",
    "C123_loaded_well_founded",
    "C123_cycle_never_loads",
    "C123_self_exhausts",
    "C123_two_lines_refuted",
    "C123_shared_reference_refuted"
   ],
   "note": "False: includes on two lines are rejected, as is anything after the last include, and a file cannot refer to what another file defines. Proved: documents of adjacent includes are read in order, a document with an include has nothing else, it loads exactly when each file loads by itself, to the merge of the files; cycles of includes never load, and a file that begins with an include of itself exhausts every stack."
  },
  {
   "property": "C124",
   "status": "partial",
   "theorems": [
    "C124_leading_layout",
    "C124_leading_loads",
    "C124_layout_refuted"
   ],
   "note": "False between tokens: after a comment line an indented line is not skipped, so that a second, indented comment becomes an element of an array or the text of a string, or makes the document unreadable. Proved: any block (white space, then comment lines directly below each other) before a document that does not begin with layout changes neither what is read nor what it loads to."
  },
  {
   "property": "C125",
   "status": "partial",
   "theorems": [
    "C125_no_enumeration",
    "C125_concatenation_refuted"
   ],
   "note": "False: a reference next to a string is an error (a panic while the message is built), a reference after unquoted text is text. Proved: no text without a comment line that is directly followed by a blank is read as an enumeration, anywhere in it."
  },
  {
   "property": "C126",
   "status": "proved",
   "theorems": [
    "C126_stack",
    "C126_before",
    "C126_loads_iff",
    "C126_ends",
    "C126_panics_iff",
    "C126_not_read"
   ],
   "note": "For all texts without `include ` and without a comment line directly followed by a blank, with no hypothesis about the configuration that is read: C68 without its hypotheses, termination, and which outcome."
  },
  {
   "property": "C127",
   "status": "proved",
   "theorems": [
    "C127_json",
    "C127_bench",
    "C127_calculator",
    "C127_cron",
    "C127_uri",
    "C127_toys",
    "C127_hocon"
   ],
   "note": "Of a failure only the commit status is compared, since errors name positions. The grammars are shown to be built from the parsers of the library and regular expressions. toys: for any class of digits that agrees with ASCII. Parsers made with last_offset do look back (C127_offset), but no grammar uses it."
  },
  {
   "property": "C128",
   "status": "proved",
   "theorems": [
    "C128_equal_parts",
    "C128_decisions",
    "C128_returned",
    "C128_decorations"
   ],
   "note": "Contexts are all combinators of the library except those that take no parser; closures and primitives stay the same."
  },
  {
   "property": "C129",
   "status": "proved",
   "theorems": [
    "C129_guarded",
    "C129_json",
    "C129_json_document",
    "C129_calculator",
    "C129_toys",
    "C129_bench",
    "C129_hocon",
    "C129_left_recursion",
    "C129_left_recursion_ambiguous"
   ],
   "note": "Relates the fuel of the models to the recursion of the source: solutions are any parsers that satisfy the equation, without fuel. toys lines: for any class of digits that agrees with ASCII."
  },
  {
   "property": "C130",
   "status": "proved",
   "theorems": [
    "C130_closest",
    "C130_exact",
    "C130_integers",
    "C130_numbers"
   ],
   "note": "With a concrete f64::from_str (F64.v, rounding by Flocq). Uses the axioms of the real numbers of the standard library."
  },
  {
   "property": "C131",
   "status": "partial",
   "theorems": [
    "C131_finite_refuted",
    "C131_finite_partial",
    "C131_documents_partial"
   ],
   "note": "False: 1e309 is read as infinity. Proved: a number becomes infinite exactly if its magnitude is at least 2^1024 - 2^970, and never a NaN."
  },
  {
   "property": "C132",
   "status": "proved",
   "theorems": [
    "C132_height",
    "C132_depth",
    "C132_flat",
    "C132_array"
   ],
   "note": "Calls are counted by a transcription of the grammar whose outcomes are proved equal to those of the model (Measure.v, MeasureJson.v): every closure of a parser is a call inside of the one that runs it."
  },
  {
   "property": "C133",
   "status": "partial",
   "theorems": [
    "C133_height_refuted",
    "C133_height_partial",
    "C133_operators",
    "C133_repeat_flat",
    "C133_chain_deep"
   ],
   "note": "False: rest_left1 recurses once per operator, so a sum without parentheses needs two more nested calls per operator. Proved: at most 20 nested calls per element; repetitions do not nest."
  },
  {
   "property": "C134",
   "status": "proved",
   "theorems": [
    "C134_calls"
   ],
   "note": "At most 600 calls per element and 260 more; the constant is not tight."
  },
  {
   "property": "C135",
   "status": "proved",
   "theorems": [
    "C135_one_kind",
    "C135_kinds",
    "C135_map_laws",
    "C135_result",
    "C135_pp_parse"
   ],
   "note": "The kinds are those of the parsers that create errors themselves; all others pass errors on."
  },
  {
   "property": "C136",
   "status": "proved",
   "theorems": [
    "C136_calls",
    "C136_chain"
   ],
   "note": "At most 204 calls per element and 140 more; the constant is not tight."
  },
  {
   "property": "C137",
   "status": "partial",
   "theorems": [
    "C137_reads_back_partial",
    "C137_determined_partial",
    "C137_determined_refuted",
    "C137_arithmetic",
    "C137_fizz_buzz",
    "C137_accessors"
   ],
   "note": "False with strings: the text 1 is written like the number 1, and one string can be written like two values.  Proved for values without strings; arithmetic programs and fizz buzz are followed down to the text written."
  },
  {
   "property": "C138",
   "status": "proved",
   "theorems": [
    "C138_reentered",
    "C138_call",
    "C138_expression",
    "C138_program",
    "C138_text",
    "C138_ends"
   ],
   "note": "Runs that end with a panic may enter a function again (C138_ends bounds their stack, too).  For whole programs the initialisers of globals must not assign variables; those that the parser reads do not (C138_text).  Proved by running the inner call beside the outer one: they do the same until the inner one assigns what the outer one has defined."
  },
  {
   "property": "C139",
   "status": "partial",
   "theorems": [
    "C139_doubling",
    "C139_lines_doubling",
    "C139_polynomial_refuted",
    "C139_lines_polynomial_refuted"
   ],
   "note": "False: fn f(){if(a)if(a)b;else{if(a)if(a)b;else... takes at least 2^d calls for 6 + 17 d characters, although the parsers are cached (lazy makes new caches)."
  },
  {
   "property": "C140",
   "status": "partial",
   "theorems": [
    "C140_measured",
    "C140_doubling",
    "C140_polynomial_refuted"
   ],
   "note": "False: the line a={ written d + 1 times is accepted after at least 2^d calls for 4 (d + 1) bytes."
  },
  {
   "property": "C141",
   "status": "partial",
   "theorems": [
    "C141_text_determines_partial",
    "C141_text_determines_refuted",
    "C141_places_refuted",
    "C141_inner_shown",
    "C141_decorated",
    "C141_input_chars",
    "C141_input_ascii",
    "C141_input_bytes",
    "C141_input_bytes_refuted",
    "C141_element_bytes"
   ],
   "note": "False: a message may contain the text of another error, and one byte of a longer character is shown as nothing. Proved: the text determines kind, place and message of every error inside if no message of Expect and Custom contains the word at after a blank or is the name of a kind; messages are the tags of the model."
  },
  {
   "property": "C142",
   "status": "proved",
   "theorems": [
    "C142_measured",
    "C142_linear",
    "C142_depth",
    "C142_depth_exact"
   ],
   "note": "The count is of closures of the combinators run, as for C134; the work inside of String::from_utf8, parse and Ipv6Addr::from_str is not counted."
  },
  {
   "property": "C143",
   "status": "proved",
   "theorems": [
    "C143_measured",
    "C143_linear",
    "C143_depth"
   ],
   "note": "A closure made by cache() is counted as if it found nothing in its map, which is the most it can cost."
  },
  {
   "property": "C144",
   "status": "proved",
   "theorems": [
    "C144_measured",
    "C144_height",
    "C144_entries",
    "C144_depth"
   ],
   "note": "The depth is of closures of the combinators, as for C132; merging and dropping the values read is not counted."
  },
  {
   "property": "C145",
   "status": "proved",
   "theorems": [
    "C145_calls",
    "C145_polynomial",
    "C145_entries",
    "C145_doubling",
    "C145_coarser"
   ],
   "note": "Calls of closures of the combinators, as for C132; merging and dropping the values read is not counted. That time grows exponentially with unclosed objects is C140."
  },
  {
   "property": "C146",
   "status": "proved",
   "theorems": [
    "C146_repetition",
    "C146_lines",
    "C146_outcome",
    "C146_cron",
    "C146_cron_accepted"
   ],
   "note": "The caches of the cron parser are left out of the logging model: within one parse no cache object is asked twice for the same place. The Debug text of a result is an arbitrary function."
  },
  {
   "property": "C147",
   "status": "proved",
   "theorems": [
    "C147_measured",
    "C147_lines_height",
    "C147_program_height",
    "C147_plain",
    "C147_exact"
   ],
   "note": "The depth is of closures of the combinators, as for C132. Every cache is taken as one that does not know the place yet; one that does calls nothing, so the upper bounds hold with caches and the exact value is that of a parse whose caches know nothing."
  },
  {
   "property": "C148",
   "status": "proved",
   "theorems": [
    "C148_lines",
    "C148_program",
    "C148_few_brackets",
    "C148_fewer_calls",
    "C148_cached"
   ],
   "note": "The calls are of closures of the combinators, as for C132, every cache taken as one that does not know the place yet; C148_cached is about the calls of cached parsers with the caches as they are (the count of C139). The base 16 is not claimed to be the least."
  },
  {
   "property": "C149",
   "status": "proved",
   "theorems": [
    "C149_grammars",
    "C149_cron",
    "C149_program",
    "C149_lines",
    "C149_bench_char",
    "C149_bench_byte"
   ],
   "note": "A hit is made visible as a panic, which no combinator hides. The benchmark parser of bytes is proved for readers of doubles that read every JSON number, as f64::from_str does (C105); the digit class of toys is assumed to have exactly the ASCII digits below 128."
  },
  {
   "property": "C150",
   "status": "proved",
   "theorems": [
    "C150_cron",
    "C150_program",
    "C150_lines",
    "C150_bench",
    "C150_bench_stale",
    "C150_cron_refuted",
    "C150_program_refuted"
   ],
   "note": "The unconditional claim, that an object may be used again, is false of the code: C150_bench_stale, C150_cron_refuted, C150_program_refuted. No function of the repository uses one object for two texts. A text may not be longer than the number k that bounds the recursion of the object in the model."
  },
  {
   "property": "C151",
   "status": "proved",
   "theorems": [
    "C151_cron",
    "C151_program",
    "C151_lines",
    "C151_bench"
   ],
   "note": "A text may not be longer than the number k that bounds the recursion of the object in the model; the digit class of toys is assumed to have exactly the ASCII digits below 128."
  },
  {
   "property": "C152",
   "status": "proved",
   "theorems": [
    "C152_outcome",
    "C152_true",
    "C152_products",
    "C152_product",
    "C152_name",
    "C152_for"
   ],
   "note": "The texts that the two results and the rest of the input are shown as are parameters. C152_name is about names that begin neither with f nor with true, as in C79. The caches are left out, which C149 justifies: within one parse none of them finds an answer, so no line is missing. C152_product, C152_name and C152_for have as their hypothesis that the digit class has exactly the ASCII digits below 128. The converse of C152_products does not hold: lines may also tell of operators of texts that were given up (Example C152_more)."
  },
  {
   "property": "C153",
   "status": "partial",
   "theorems": [
    "C153_polynomial_refuted",
    "C153_doubling",
    "C153_every_expression"
   ],
   "note": "False: a text of 6 + 17 d characters leaves at least 2^d lines (d > 0), because the line behind an else is read once for each if before it, and every if read leaves a line. The log of the parsers without caches, which within one parse find no answer (C149)."
  },
  {
   "property": "C154",
   "status": "proved",
   "theorems": [
    "C154_outcome",
    "C154_numbers",
    "C154_once",
    "C154_first"
   ],
   "note": "The text that characters are shown as, Decimal::from_str and the class of digits are parameters; C154_numbers and C154_once have as their hypothesis that the class has exactly the ASCII digits below 128."
  },
  {
   "property": "C155",
   "status": "proved",
   "theorems": [
    "C155_square",
    "C155_reached",
    "C155_accepted"
   ],
   "note": "The length of the text that characters are shown as is a hypothesis of each of the three (at most, exactly, at least), since Debug is not modelled; C155_accepted also supposes that Decimal::from_str reads \"1\". 15 is the length of \"regex: input = \"."
  },
  {
   "property": "C156",
   "status": "proved",
   "theorems": [
    "C156_calls",
    "C156_lines",
    "C156_few_brackets",
    "C156_brackets_needed"
   ],
   "note": "Parsers without caches on both sides (C149: within one parse no cache finds an answer). The bound of C156_lines is the one of C148 and is not claimed to be sharp."
  }
 ]
}