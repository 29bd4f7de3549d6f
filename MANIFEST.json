{
 "claims": [
  {
   "property": "C01",
   "status": "proved",
   "theorems": [
    "C01_tokenizer_safe"
   ],
   "note": ""
  },
  {
   "property": "C02",
   "status": "proved",
   "theorems": [
    "C02_standard_tokens",
    "C02_standard_tokens_end"
   ],
   "note": ""
  },
  {
   "property": "C03",
   "status": "proved",
   "theorems": [
    "C03_prefix_tokens",
    "C03_prefix_tokens_end"
   ],
   "note": ""
  },
  {
   "property": "C04",
   "status": "proved",
   "theorems": [
    "C04_stored",
    "C04_states",
    "C04_lines",
    "C04_empty_refuted"
   ],
   "note": "C04_*_refuted theorems name the spellings that differ: an empty value in slash/dash style is read again as an argument."
  },
  {
   "property": "C05",
   "status": "proved",
   "theorems": [
    "C05_states",
    "C05_lines",
    "C05_last_option_refuted",
    "C05_ignoring_refuted"
   ],
   "note": "Groups that contain a LAST_OPTION flag, and ignored unknown flags, are excluded; the _refuted theorems show why."
  },
  {
   "property": "C06",
   "status": "proved",
   "theorems": [
    "C06_line",
    "C06_line_others",
    "C06_command_refuted",
    "C06_values_verbatim",
    "C06_values_verbatim_after_value",
    "C06_values_verbatim_refuted"
   ],
   "note": "C06_values_verbatim_refuted: in slash and dash style an empty argument follows each one (C06_line_others gives the exact words). C06_command_refuted: the arguments of a sub-command are considered as options again."
  },
  {
   "property": "C07",
   "status": "proved",
   "theorems": [
    "C07_option",
    "C07_argument",
    "C07_inserted_read_next",
    "C07_inserted_value_next_refuted"
   ],
   "note": "Tokenizer and parser level. Refuted for a value read directly after an insertion in the middle of a group."
  },
  {
   "property": "C08",
   "status": "proved",
   "theorems": [
    "C08_remaining_is_unread",
    "C08_remaining_is_unread_refuted",
    "C08_remaining_from_argv"
   ],
   "note": "Refuted only for groups that contain '-' ('-a-b'); the theorem covers the others."
  },
  {
   "property": "C09",
   "status": "proved",
   "theorems": [
    "C09_own_flag_in_parser",
    "C09_own_flag"
   ],
   "note": ""
  },
  {
   "property": "C10",
   "status": "proved",
   "theorems": [
    "C10_lookup_in_parser",
    "C10_lookup",
    "C10_selects_unique"
   ],
   "note": ""
  },
  {
   "property": "C11",
   "status": "proved",
   "theorems": [
    "C11_lookup_ci",
    "C11_own_flag_ci",
    "C11_lookup_ci_refuted"
   ],
   "note": ""
  },
  {
   "property": "C12",
   "status": "proved",
   "theorems": [
    "C12_duplicates",
    "C12_duplicates_ci",
    "C12_duplicates_ci_refuted"
   ],
   "note": ""
  },
  {
   "property": "C13",
   "status": "proved",
   "theorems": [
    "C13_sort_independent",
    "C13_index_unique",
    "C13_model_index_sorted"
   ],
   "note": ""
  },
  {
   "property": "C14",
   "status": "proved",
   "theorems": [
    "C14_option_valid",
    "C14_option_result",
    "C14_option_value",
    "C14_definition_accepted"
   ],
   "note": ""
  },
  {
   "property": "C15",
   "status": "proved",
   "theorems": [
    "C15_copy_from_refuted",
    "C15_built_well_formed",
    "C15_add_argument",
    "C15_argument_added",
    "C15_option_added",
    "C15_command_added"
   ],
   "note": "C15_copy_from_refuted: copying from another command can combine what add() refuses."
  },
  {
   "property": "C16",
   "status": "proved",
   "theorems": [
    "C16_help_added",
    "C16_help_not_added",
    "C16_help_flags_free",
    "C16_help_valid",
    "C16_help_no_conflict",
    "C16_help_standard_flags"
   ],
   "note": ""
  },
  {
   "property": "C17",
   "status": "proved",
   "theorems": [
    "C17_ids",
    "C17_same_key",
    "C17_flag_key",
    "C17_nested_ids",
    "C17_common_name_refuted"
   ],
   "note": "C17_common_name_refuted shows the one kind of clash that is not detected."
  },
  {
   "property": "C18",
   "status": "proved",
   "theorems": [
    "C18_history",
    "C18_frame"
   ],
   "note": ""
  },
  {
   "property": "C19",
   "status": "proved",
   "theorems": [
    "C19_agree"
   ],
   "note": ""
  },
  {
   "property": "C20",
   "status": "proved",
   "theorems": [
    "C20_lookup",
    "C20_unknown",
    "C20_known"
   ],
   "note": ""
  },
  {
   "property": "C21",
   "status": "proved",
   "theorems": [
    "C21_as_int",
    "C21_as_long",
    "C21_as_llong",
    "C21_default_or_error",
    "C21_text_unique",
    "C21_as_ints"
   ],
   "note": ""
  },
  {
   "property": "C22",
   "status": "proved",
   "theorems": [
    "C22_as_ulong",
    "C22_as_ullong",
    "C22_as_uint",
    "C22_non_negative",
    "C22_range",
    "C22_negative_refuted"
   ],
   "note": "C22_negative_refuted: negative numbers are accepted for unsigned types, as strtoul does."
  },
  {
   "property": "C23",
   "status": "proved",
   "theorems": [
    "C23_round_trip"
   ],
   "note": ""
  },
  {
   "property": "C24",
   "status": "proved",
   "theorems": [
    "C24_as_bool"
   ],
   "note": ""
  },
  {
   "property": "C25",
   "status": "proved",
   "theorems": [
    "C25_split",
    "C25_split_unique",
    "C25_split_count",
    "C25_split_error",
    "C25_split_values"
   ],
   "note": ""
  },
  {
   "property": "C26",
   "status": "proved",
   "theorems": [
    "C26_distribution",
    "C26_unique"
   ],
   "note": ""
  },
  {
   "property": "C27",
   "status": "proved",
   "theorems": [
    "C27_min_max"
   ],
   "note": ""
  },
  {
   "property": "C28",
   "status": "proved",
   "theorems": [
    "C28_order_plain",
    "C28_order_counted",
    "C28_when_counted",
    "C28_count"
   ],
   "note": ""
  },
  {
   "property": "C29",
   "status": "proved",
   "theorems": [
    "C29_complete_plain",
    "C29_complete_counted",
    "C29_complete_counted_refuted",
    "C29_complete_counted_mandatory",
    "C29_in_range"
   ],
   "note": "Holds unless the last counters are for zero arguments (C29 _refuted theorem)."
  },
  {
   "property": "C30",
   "status": "proved",
   "theorems": [
    "C30_terminates",
    "C30_terminates_with_insertions",
    "C30_outcome_unique",
    "C30_insertions_refuted"
   ],
   "note": "Also proved when callbacks insert arguments only finitely often; C30_insertions_refuted shows a callback for which parse() never ends."
  },
  {
   "property": "C31",
   "status": "proved",
   "theorems": [
    "C31_final"
   ],
   "note": ""
  },
  {
   "property": "C32",
   "status": "proved",
   "theorems": [
    "C32_stop_refuted",
    "C32_result_code",
    "C32_toplevel_stop_refuted"
   ],
   "note": "C32_toplevel_stop_refuted: after a STOP option of a sub-command the top-level code is NONE. C32_stop_refuted: or even SUCCESS, if a LAST_ARGUMENT option has ended an earlier sub-command."
  },
  {
   "property": "C33",
   "status": "proved",
   "theorems": [
    "C33_siblings_refuted",
    "C33_mandatory_options",
    "C33_ancestors_refuted"
   ],
   "note": "C33_ancestors_refuted: mandatory options of ancestors are not checked, as the property says. C33_siblings_refuted: nor are those of sub-commands before the last one."
  },
  {
   "property": "C34",
   "status": "proved",
   "theorems": [
    "C34_argument_counts",
    "C34_parsed_reached"
   ],
   "note": ""
  },
  {
   "property": "C35",
   "status": "proved",
   "theorems": [
    "C35_unknown_option",
    "C35_surplus_argument",
    "C35_unknown_command",
    "C35_group_refuted",
    "C35_ignored_group_refuted"
   ],
   "note": "Groups with ignored unknown flags are excluded (C35_*_refuted)."
  },
  {
   "property": "C36",
   "status": "proved",
   "theorems": [
    "C36_stop"
   ],
   "note": ""
  },
  {
   "property": "C37",
   "status": "proved",
   "theorems": [
    "C37_exits",
    "C37_returns"
   ],
   "note": ""
  },
  {
   "property": "C38",
   "status": "proved",
   "theorems": [
    "C38_values",
    "C38_unprocessed",
    "C38_initial_sub_refuted"
   ],
   "note": "C38_initial_sub_refuted: initial values of sub-command options are not used."
  },
  {
   "property": "C39",
   "status": "proved",
   "theorems": [
    "C39_filter",
    "C39_filter_exact"
   ],
   "note": ""
  },
  {
   "property": "C40",
   "status": "proved",
   "theorems": [
    "C40_subcommands"
   ],
   "note": ""
  },
  {
   "property": "C41",
   "status": "proved",
   "theorems": [
    "C41_same",
    "C41_version_refuted",
    "C41_program",
    "C41_again"
   ],
   "note": "C41 refuted parts: the copy loses the visibility of commands and the version."
  },
  {
   "property": "C42",
   "status": "proved",
   "theorems": [
    "C42_option",
    "C42_option_error",
    "C42_argument",
    "C42_others",
    "C42_order"
   ],
   "note": ""
  },
  {
   "property": "C43",
   "status": "proved",
   "theorems": [
    "C43_distribution",
    "C43_exit_refuted",
    "C43_unread_refuted"
   ],
   "note": "The exceptions are real: C43_exit_refuted, C43_unread_refuted, C65_beginning_refuted."
  },
  {
   "property": "C44",
   "status": "proved",
   "theorems": [
    "C44_base_name_after_separator",
    "C44_base_name_without_separator",
    "C44_base_name_cases"
   ],
   "note": ""
  },
  {
   "property": "C45",
   "status": "proved",
   "theorems": [
    "C45_equal_ci",
    "C45_equal_ci_equivalence",
    "C45_order_ci",
    "C45_order_ci_refuted",
    "C45_order_safe",
    "C45_asymmetric_refuted"
   ],
   "note": "C45_order_ci_refuted: a backquote and a letter are ordered neither way by the case-insensitive comparison."
  },
  {
   "property": "C46",
   "status": "proved",
   "theorems": [
    "C46_count_text",
    "C46_count_truncated",
    "C46_count_malformed",
    "C46_count_le_length",
    "C46_find_nth",
    "C46_find_nth_range"
   ],
   "note": ""
  },
  {
   "property": "C47",
   "status": "proved",
   "theorems": [
    "C47_parts",
    "C47_rule",
    "C47_default",
    "C47_refused_rules",
    "C47_accepted_rules",
    "C47_malformed_rule_refuted"
   ],
   "note": "For rules that are UTF-8; C47_malformed_rule_refuted shows that the others can break it."
  },
  {
   "property": "C48",
   "status": "proved",
   "theorems": [
    "C48_width",
    "C48_squeezed_refuted"
   ],
   "note": "For UTF-8 text and rules. The exception (one or two columns left) is real: C48_squeezed_refuted. Termination is C52_outcomes."
  },
  {
   "property": "C49",
   "status": "proved",
   "theorems": [
    "C49_layout",
    "C49_characters",
    "C49_gap_refuted",
    "C49_malformed_rule_refuted"
   ],
   "note": "For rules that are UTF-8. The gap after a list marker can get lost (C49_gap_refuted); characters never do."
  },
  {
   "property": "C50",
   "status": "proved",
   "theorems": [
    "C50_safe"
   ],
   "note": ""
  },
  {
   "property": "C51",
   "status": "proved",
   "theorems": [
    "C51_restored",
    "C51_tabs_refuted"
   ],
   "note": "C51_tabs_refuted shows that the exception is real."
  },
  {
   "property": "C52",
   "status": "proved",
   "theorems": [
    "C52_outcomes",
    "C52_no_exception",
    "C52_formatter",
    "C52_carriage_return_refuted"
   ],
   "note": ""
  },
  {
   "property": "C53",
   "status": "proved",
   "theorems": [
    "C53_layout",
    "C53_characters",
    "C53_narrow_refuted",
    "C53_carriage_return_refuted"
   ],
   "note": ""
  },
  {
   "property": "C54",
   "status": "proved",
   "theorems": [
    "C54_exact"
   ],
   "note": ""
  },
  {
   "property": "C55",
   "status": "proved",
   "theorems": [
    "C55_help",
    "C55_error",
    "C55_all_hidden_refuted",
    "C55_subcommands_refuted"
   ],
   "note": ""
  },
  {
   "property": "C56",
   "status": "proved",
   "theorems": [
    "C56_layout",
    "C56_exact",
    "C56_item"
   ],
   "note": ""
  },
  {
   "property": "C57",
   "status": "proved",
   "theorems": [
    "C57_help",
    "C57_error"
   ],
   "note": ""
  },
  {
   "property": "C58",
   "status": "proved",
   "theorems": [
    "C58_used_up",
    "C58_argv_refuted",
    "C58_added",
    "C58_items",
    "C58_copy_from_refuted"
   ],
   "note": "C58 refuted parts: parse(argc, argv) and Command::copy_from on moved-from objects."
  },
  {
   "property": "C59",
   "status": "proved",
   "theorems": [
    "C59_refused_changes",
    "C59_copy_from_refuted"
   ],
   "note": "C59 refuted part: copy_from may be left half done by an exception."
  },
  {
   "property": "C60",
   "status": "proved",
   "theorems": [
    "C60_style",
    "C60_throws",
    "C60_subcommands_refuted",
    "C60_accepted"
   ],
   "note": "C60 refuted part: the style can be changed although sub-commands have options."
  },
  {
   "property": "C61",
   "status": "proved",
   "theorems": [
    "C61_argument",
    "C61_parser",
    "C61_finished"
   ],
   "note": ""
  },
  {
   "property": "C62",
   "status": "proved",
   "theorems": [
    "C62_name",
    "C62_ignored",
    "C62_const",
    "C62_overloads"
   ],
   "note": ""
  },
  {
   "property": "C63",
   "status": "proved",
   "theorems": [
    "C63_same",
    "C63_exit",
    "C63_throw",
    "C63_in_order",
    "C63_parsed_arguments_refuted"
   ],
   "note": "C63 refuted part: ArgumentIterator::parsed_arguments() returns the innermost results."
  },
  {
   "property": "C64",
   "status": "proved",
   "theorems": [
    "C64_items",
    "C64_all"
   ],
   "note": ""
  },
  {
   "property": "C65",
   "status": "proved",
   "theorems": [
    "C65_argument",
    "C65_success",
    "C65_sibling",
    "C65_last_unused_refuted",
    "C65_beginning_refuted",
    "C65_unread_refuted"
   ],
   "note": "C65_last_unused_refuted: 'p [A] [B]' rejects a single argument. C65_beginning_refuted, C65_unread_refuted: lines rejected because look-ahead reads them differently."
  },
  {
   "property": "C66",
   "status": "proved",
   "theorems": [
    "C66_print",
    "C66_none_refuted"
   ],
   "note": "C66_none_refuted: options with operation NONE share one line."
  },
  {
   "property": "C67",
   "status": "proved",
   "theorems": [
    "C67_supplier",
    "C67_suppliers",
    "C67_view_refuted",
    "C67_arguments",
    "C67_error",
    "C67_as_int",
    "C67_same",
    "C67_at",
    "C67_at_none",
    "C67_values_error",
    "C67_values",
    "C67_split",
    "C67_values_split_error",
    "C67_values_split"
   ],
   "note": "C67_view_refuted: value(view) names the view's item. Conversions are a parameter of the error theorems; C67_as_int instantiates it."
  },
  {
   "property": "C68",
   "status": "proved",
   "theorems": [
    "C68_float",
    "C68_unique"
   ],
   "note": "What strtof/strtod make of an exact number (rounding, range error) is a parameter; which texts they consume is modelled after C11 7.22.1.3."
  },
  {
   "property": "C69",
   "status": "proved",
   "theorems": [
    "C69_kept",
    "C69_full_name_refuted"
   ],
   "note": "C69_full_name_refuted: the full name of a nested sub-command lacks the names above its parent."
  },
  {
   "property": "C70",
   "status": "proved",
   "theorems": [
    "C70_success",
    "C70_failure",
    "C70_stop",
    "C70_exit",
    "C70_throw",
    "C70_callbacks",
    "C70_silent",
    "C70_narrow_refuted"
   ],
   "note": ""
  },
  {
   "property": "C71",
   "status": "proved",
   "theorems": [
    "C71_total",
    "C71_unique",
    "C71_success",
    "C71_only",
    "C71_surplus",
    "C71_stopped",
    "C71_faulty",
    "C71_incomplete"
   ],
   "note": "Definitions in which a command accepts several sub-commands one after the other (allow_multiple_commands) are the subject of C73."
  },
  {
   "property": "C72",
   "status": "proved",
   "theorems": [
    "C72_reading",
    "C72_success"
   ],
   "note": ""
  },
  {
   "property": "C73",
   "status": "proved",
   "theorems": [
    "C73_line",
    "C73_total",
    "C73_unique",
    "C73_return_refuted"
   ],
   "note": "C73_return_refuted: after a LAST_ARGUMENT option of a sub-command the options of the command that regains control are not recognised, as the property says."
  },
  {
   "property": "C74",
   "status": "proved",
   "theorems": [
    "C74_counted_again",
    "C74_maximum_refuted",
    "C74_minimum_refuted",
    "C74_last_option_refuted",
    "C74_siblings_refuted"
   ],
   "note": "C74_maximum_refuted, C74_minimum_refuted, C74_last_option_refuted, C74_siblings_refuted: the exceptions named in the property."
  },
  {
   "property": "C75",
   "status": "proved",
   "theorems": [
    "C75_copy",
    "C75_copy_from",
    "C75_parser_copy_from"
   ],
   "note": "That the copies lose their visibility is finding 8 in DESIGN.md."
  },
  {
   "property": "C76",
   "status": "proved",
   "theorems": [
    "C76_argument",
    "C76_option",
    "C76_command",
    "C76_settings",
    "C76_parser"
   ],
   "note": "The option style is the subject of C60."
  },
  {
   "property": "C77",
   "status": "proved",
   "theorems": [
    "C77_option",
    "C77_argument"
   ],
   "note": "Also for LAST_ARGUMENT options inside a command that may be followed by another one: where the finished results go is part of the statement."
  },
  {
   "property": "C78",
   "status": "proved",
   "theorems": [
    "C78_text",
    "C78_beside",
    "C78_determined",
    "C78_beside_determined",
    "C78_paragraph",
    "C78_line_ends",
    "C78_marker_refuted"
   ],
   "note": "C78_marker_refuted: the exception named in the property. The rules may not end with a space (trimmed_rules): see C47 for what such rules do."
  },
  {
   "property": "C79",
   "status": "proved",
   "theorems": [
    "C79_exact",
    "C79_determined",
    "C79_error",
    "C79_error_determined",
    "C79_texts"
   ],
   "note": "Texts with trailing blanks on a line, with spaces next to a tab, or with a line that is only a list marker are not covered by the exact form (C53 and C56 cover them up to layout)."
  },
  {
   "property": "C80",
   "status": "proved",
   "theorems": [
    "C80_returned",
    "C80_kept",
    "C80_kept_before",
    "C80_values",
    "C80_own_value_refuted",
    "C80_wide_callback_refuted"
   ],
   "note": "C80_own_value_refuted and C80_wide_callback_refuted: the exception named in the property. Views of the tokenizer's own strings (current()) are read from the tokenizer state of MOptIter.v."
  },
  {
   "property": "C81",
   "status": "proved",
   "theorems": [
    "C81_calls",
    "C81_current_kept",
    "C81_remaining_kept",
    "C81_insert_refuted",
    "C81_blocks",
    "C81_released"
   ],
   "note": "C81_insert_refuted: the exception named in the property; in the model vector::insert always moves the elements, in C++ it invalidates references at and after the place of insertion in any case."
  },
  {
   "property": "C82",
   "status": "proved",
   "theorems": [
    "C82_help",
    "C82_error",
    "C82_always",
    "C82_none",
    "C82_once",
    "C82_error_once",
    "C82_throws",
    "C82_error_throws",
    "C82_usage_refuted"
   ],
   "note": "C82_usage_refuted: the exception named in the property. Callbacks of other parts of the library are those of C20-C30 and C77; a text callback that itself calls the parser is not modelled."
  },
  {
   "property": "C83",
   "status": "proved",
   "theorems": [
    "C83_calls",
    "C83_kept",
    "C83_nothing_left",
    "C83_others",
    "C83_unchanged",
    "C83_read",
    "C83_derived",
    "C83_assigned",
    "C83_moved",
    "C83_move_assigned",
    "C83_destroyed",
    "C83_const_parse",
    "C83_parse",
    "C83_iterator",
    "C83_used_up",
    "C83_view",
    "C83_subcommand",
    "C83_next",
    "C83_view_refuted",
    "C83_text_refuted",
    "C83_position_refuted",
    "C83_null_refuted"
   ],
   "note": "C83_view_refuted, C83_text_refuted, C83_position_refuted and C83_null_refuted: the exceptions named in the property. The texts of stored values can also be released by later calls of next (C80). parse and make_iterator for (argc, argv) read the used-up parser before checking it (finding 10)."
  },
  {
   "property": "C84",
   "status": "proved",
   "theorems": [
    "C84_same",
    "C84_view",
    "C84_item",
    "C84_suppliers",
    "C84_none",
    "C84_none_refuted",
    "C84_same_refuted",
    "C84_stop_option"
   ],
   "note": "Proved for every result of an accepted definition. Refuted without the condition on the name: an item whose alias is a flag of an option that shares its value with a third item is not found under that alias (C84_same_refuted). Refuted for options of operation NONE with an initial value: all of them then have it (C84_none_refuted)."
  },
  {
   "property": "C85",
   "status": "proved",
   "theorems": [
    "C85_steps",
    "C85_callback",
    "C85_caught_refuted"
   ],
   "note": "C85_steps: a program that runs on the parser's state is compared with a big-step specification that has exactly one result; C85_callback: every such program is one of the functions that stand for callbacks in the rest of the model (the exception EMultipleValues counts as the callback's own); C85_caught_refuted: except those that catch what error() throws."
  },
  {
   "property": "C86",
   "status": "proved",
   "theorems": [
    "C86_accepted",
    "C86_refused",
    "C86_swap"
   ],
   "note": "By C71: the spec says which words can concern a value, and two lines are compared whose words agree value by value. C86_refused does not say that the values found so far are the same. A surplus argument is not covered (what was read before it differs)."
  },
  {
   "property": "C87",
   "status": "proved",
   "theorems": [
    "C87_values",
    "C87_accepted",
    "C87_abbreviation_refuted",
    "C87_equals_refuted"
   ],
   "note": "'Written in full' is expressed by reading the line without abbreviations. C87_abbreviation_refuted and C87_equals_refuted: the exceptions named in the property. Values are compared as texts (the ids of the suppliers are renumbered)."
  },
  {
   "property": "C88",
   "status": "proved",
   "theorems": [
    "C88_total",
    "C88_success",
    "C88_without",
    "C88_same_values",
    "C88_filtered",
    "C88_surplus",
    "C88_stopped",
    "C88_faulty",
    "C88_incomplete",
    "C88_once_refuted"
   ],
   "note": "C88_once_refuted: the exception named in the property. Flags that share an argument are covered up to the first unknown one (C88_total); what happens at it is in C35. 'Understood as the same words': C88_without gives the other arguments and their reading (as in C71)."
  },
  {
   "property": "C89",
   "status": "proved",
   "theorems": [
    "C89_definitions",
    "C89_unchanged",
    "C89_never",
    "C89_success",
    "C89_filtered",
    "C89_stopped",
    "C89_faulty",
    "C89_incomplete"
   ],
   "note": "C89_filtered: 'leaves exactly the ignored ones' is stated for ignored ones that are elements of argv; the rest of a group of flags behind a LAST_OPTION flag is an argument but not an element of argv."
  },
  {
   "property": "C90",
   "status": "proved",
   "theorems": [
    "C90_definitions",
    "C90_same",
    "C90_exits",
    "C90_returned",
    "C90_thrown",
    "C90_iterator",
    "C90_iterator_exits"
   ],
   "note": ""
  },
  {
   "property": "C91",
   "status": "proved",
   "theorems": [
    "C91_definitions",
    "C91_values",
    "C91_refused",
    "C91_extended",
    "C91_commands_refuted",
    "C91_help_refuted"
   ],
   "note": ""
  },
  {
   "property": "C92",
   "status": "proved",
   "theorems": [
    "C92_items",
    "C92_definitions",
    "C92_parse",
    "C92_iterator",
    "C92_programs",
    "C92_looking_refuted",
    "C92_copy_from_refuted"
   ],
   "note": ""
  },
  {
   "property": "C93",
   "status": "proved",
   "theorems": [
    "C93_items",
    "C93_help",
    "C93_texts",
    "C93_calls",
    "C93_accepted_refuted"
   ],
   "note": ""
  },
  {
   "property": "C94",
   "status": "proved",
   "theorems": [
    "C94_definitions",
    "C94_parse",
    "C94_same",
    "C94_reached",
    "C94_next"
   ],
   "note": ""
  },
  {
   "property": "C95",
   "status": "proved",
   "theorems": [
    "C95_definitions",
    "C95_parse",
    "C95_iterator"
   ],
   "note": ""
  },
  {
   "property": "C96",
   "status": "proved",
   "theorems": [
    "C96_definitions",
    "C96_parse",
    "C96_iterator"
   ],
   "note": ""
  }
 ]
}