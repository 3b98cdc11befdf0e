{
 "claims": [
  {
   "property": "C01",
   "status": "proved",
   "theorems": [
    "C01_utf8_roundtrip"
   ],
   "note": "UTF-8 encode/parse_code_point, all scalar values, any continuation"
  },
  {
   "property": "C02",
   "status": "proved",
   "theorems": [
    "C02_utf8_accepts_only_well_formed"
   ],
   "note": "soundness, completeness and meaning of each error kind; bytes < 256"
  },
  {
   "property": "C03",
   "status": "partial",
   "theorems": [
    "C03_utf16_roundtrip_refuted",
    "C03_utf16_roundtrip_partial",
    "C03_utf16_sound_partial"
   ],
   "note": "full statement is false of the code (|= 0x10000); exact behaviour proved for every plane"
  },
  {
   "property": "C04",
   "status": "proved",
   "theorems": [
    "C04_utf32_ascii"
   ],
   "note": ""
  },
  {
   "property": "C05",
   "status": "partial",
   "theorems": [
    "C05_eof_refuted",
    "C05_progress_partial"
   ],
   "note": "full statement is false (UTF-8 lead bytes F8..FE are reported as eof); proved without those bytes"
  },
  {
   "property": "C06",
   "status": "partial",
   "theorems": [
    "C06_swar_equals_units_partial",
    "C06_digit_separator_refuted",
    "C06_graph_utf32_refuted",
    "C06_literal_utf32_refuted"
   ],
   "note": "false of the code in three ways (digit separators after a full word of digits, graph/print on UTF-32, char literals on UTF-32 buffers); everything else proved for all contents, positions and widths 8/16/32"
  },
  {
   "property": "C07",
   "status": "proved",
   "theorems": [
    "C07_word_predicates_exact",
    "C07_every_word_has_units"
   ],
   "note": "all 64-bit words, widths 8/16/32, little-endian host"
  },
  {
   "property": "C08",
   "status": "partial",
   "theorems": [
    "C08_filters_sound_partial",
    "C08_graph_print_refuted"
   ],
   "note": "false for graph/print on 16- and 32-bit units; proved for every other class and width"
  },
  {
   "property": "C09",
   "status": "partial",
   "theorems": [
    "C09_reads_inside_partial",
    "C09_empty_buffer_refuted"
   ],
   "note": "false for a default-constructed/moved-from sentinel buffer (null data); proved for every buffer with memory"
  },
  {
   "property": "C10",
   "status": "proved",
   "theorems": [
    "C10_buffer_operations",
    "C10_from_input"
   ],
   "note": "ownership machine with explicit undefined behaviour; all operation sequences; also leak freedom"
  },
  {
   "property": "C11",
   "status": "proved",
   "theorems": [
    "C11_raw_endianness",
    "C11_decoding_unique"
   ],
   "note": "both host byte orders"
  },
  {
   "property": "C12",
   "status": "partial",
   "theorems": [
    "C12_utf32_bom_refuted",
    "C12_bom_partial"
   ],
   "note": "false for UTF-32 inputs starting 00 00 FE xx; proved otherwise"
  },
  {
   "property": "C23",
   "status": "partial",
   "theorems": [
    "C23_literal_range_partial",
    "C23_literal_buffer_partial",
    "C23_literal_utf32_refuted",
    "C23_eof_unit_refuted"
   ],
   "note": "error index is wrong for 8-bit literals on UTF-32 buffers; literals containing the in-band end marker match at the end; everything else proved"
  },
  {
   "property": "C24",
   "status": "partial",
   "theorems": [
    "C24_longest_match_partial",
    "C24_order_irrelevant_partial",
    "C24_shared_keyword_refuted"
   ],
   "note": "false when one string is listed as keyword and as literal; proved for all other sets, for the trie as built"
  },
  {
   "property": "C25",
   "status": "partial",
   "theorems": [
    "C25_ascii_literal_partial",
    "C25_ascii_set_partial",
    "C25_unicode_literal_partial",
    "C25_unicode_utf32_partial",
    "C25_unicode_set_refuted"
   ],
   "note": "false for unicode folding of literal sets on UTF-8/16; ASCII, UTF-32 and single unicode literals proved"
  },
  {
   "property": "C20",
   "status": "partial",
   "theorems": [
    "C20_exact_partial",
    "C20_integer_rule",
    "C20_trailing_refuted",
    "C20_recovery_refuted"
   ],
   "note": "false when non-digits follow the last significant digit (spurious overflow); proved otherwise, including absence of undefined behaviour, for all types, bases and digit rules"
  },
  {
   "property": "C21",
   "status": "partial",
   "theorems": [
    "C21_digits",
    "C21_no_leading_zero",
    "C21_separator_partial",
    "C21_separator_buffer_refuted"
   ],
   "note": "digit separators are false on buffers (word-at-a-time readers); proved for every other reader and rule"
  },
  {
   "property": "C22",
   "status": "proved",
   "theorems": [
    "C22_boolean_algebra",
    "C22_matches_denotation",
    "C22_matches_denotation_read"
   ],
   "note": "all class expressions; code points outside ASCII on every encoding whose decoder is right (UTF-16 through the reader's own decoding)"
  },
  {
   "property": "C66",
   "status": "proved",
   "theorems": [
    "C66_named_classes"
   ],
   "note": ""
  },
  {
   "property": "C45",
   "status": "partial",
   "theorems": [
    "C45_terminates",
    "C45_tree",
    "C45_events",
    "C45_failure_reported",
    "C45_subexpression",
    "C45_postfix_refuted",
    "C45_grammar_partial"
   ],
   "note": "Precedence, associativity, in-order text, groups and parse tree nodes proved for all tables, inputs, atom rules; the strict reading fails for postfix operators declared looser than an infix operator (refuted), and holds without those."
  },
  {
   "property": "C46",
   "status": "partial",
   "theorems": [
    "C46_accepted_partial",
    "C46_exactly",
    "C46_unique",
    "C46_nested_groups_refuted"
   ],
   "note": "Acceptance and uniqueness proved for unambiguous literals, atoms not starting with a prefix operator, unmixed groups; the limit is on the number of operators instead of the nesting (C47); nested groups are refuted."
  },
  {
   "property": "C47",
   "status": "partial",
   "theorems": [
    "C47_count_refuted",
    "C47_flat_chain_refuted",
    "C47_limit_partial"
   ],
   "note": "Refuted: the limit counts all operators of the expression. Proved: the error is reported exactly if the reading has more operator applications than the limit, hence whenever the nesting exceeds it."
  },
  {
   "property": "C30",
   "status": "proved",
   "theorems": [
    "C30_positions_in_input",
    "C30_monotone"
   ],
   "note": ""
  },
  {
   "property": "C31",
   "status": "proved",
   "theorems": [
    "C31_tokens_tile"
   ],
   "note": ""
  },
  {
   "property": "C32",
   "status": "proved",
   "theorems": [
    "C32_nested"
   ],
   "note": "operation chains are in C45_events"
  },
  {
   "property": "C33",
   "status": "partial",
   "theorems": [
    "C33_partial",
    "C33_refuted"
   ],
   "note": "find and recover outside of try_ fail without an error; proved for all grammars that use them for recovery only"
  },
  {
   "property": "C34",
   "status": "partial",
   "theorems": [
    "C34_partial",
    "C34_errors",
    "C34_silent_refuted",
    "C34_subgrammar_refuted"
   ],
   "note": "as C33; and parse_as_tree violates its precondition with a subgrammar"
  },
  {
   "property": "C35",
   "status": "proved",
   "theorems": [
    "C35_choice",
    "C35_optional"
   ],
   "note": "Every untaken branch of a choice, if_, opt, while_ or list separator; the state apart from debug events is unchanged."
  },
  {
   "property": "C36",
   "status": "proved",
   "theorems": [
    "C36_first_match",
    "C36_skips",
    "C36_as_branch"
   ],
   "note": "First matching alternative, exhausted_choice exactly when none matches."
  },
  {
   "property": "C37",
   "status": "proved",
   "theorems": [
    "C37_peek",
    "C37_peek_not",
    "C37_lookahead"
   ],
   "note": "Position unchanged; succeeds exactly when the rule does (does not) match."
  },
  {
   "property": "C38",
   "status": "proved",
   "theorems": [
    "C38_list",
    "C38_list_fails",
    "C38_terminated",
    "C38_terminated_only",
    "C38_recovers",
    "C38_duplicated",
    "C38_duplicated_plain",
    "C38_duplicated_terminated",
    "C38_ends"
   ],
   "note": "Language and values of lists exact. Recovery: every run of a list with terminator ends with the result of the terminator or gives up at the limit or the end of the input. That lists end at all is C79 (a list whose item and separator consume nothing runs forever)."
  },
  {
   "property": "C39",
   "status": "proved",
   "theorems": [
    "C39_find",
    "C39_try"
   ],
   "note": "find stops at the first match or limit; try_ recovers exactly on failure."
  },
  {
   "property": "C40",
   "status": "partial",
   "theorems": [
    "C40_check",
    "C40_partial",
    "C40_refuted"
   ],
   "note": "The full claim is refuted: the depth is not restored when a recursion fails and the parse recovers. Proved for grammars that do not resume after a failure."
  },
  {
   "property": "C41",
   "status": "partial",
   "theorems": [
    "C41_after_token",
    "C41_at_start",
    "C41_production",
    "C41_token_production",
    "C41_no_whitespace_partial",
    "C41_flag_partial",
    "C41_failure_refuted",
    "C41_nested_refuted"
   ],
   "note": "Refuted for failures inside no_whitespace() and for nested no_whitespace(); the rest is proved."
  },
  {
   "property": "C42",
   "status": "proved",
   "theorems": [
    "C42_create",
    "C42_scope",
    "C42_assign"
   ],
   "note": "Scope, shadowing and assignment of context variables."
  },
  {
   "property": "C43",
   "status": "proved",
   "theorems": [
    "C43_round",
    "C43_combination",
    "C43_partial_combination",
    "C43_flags"
   ],
   "note": "Orders, duplicates, subsets, bitwise or."
  },
  {
   "property": "C44",
   "status": "proved",
   "theorems": [
    "C44_times",
    "C44_repeat"
   ],
   "note": "Exactly n items, values in order."
  },
  {
   "property": "C65",
   "status": "partial",
   "theorems": [
    "C65_capture_token",
    "C65_capture_rule",
    "C65_repeat_capture_refuted"
   ],
   "note": "Refuted for repeat(...).capture(), whose lexeme contains trailing whitespace; proved for capture."
  },
  {
   "property": "C48",
   "status": "partial",
   "theorems": [
    "C48_builder",
    "C48_parse",
    "C48_deterministic",
    "C48_failure",
    "C48_expression",
    "C48_expression_tree",
    "C48_subgrammar_refuted"
   ],
   "note": "Every builder call sequence, every successful parse_as_tree of the rule engine, every expression without errors. Partial: a grammar with a subgrammar violates a precondition (refuted); two uses of containers corrupt memory (C53)."
  },
  {
   "property": "C49",
   "status": "partial",
   "theorems": [
    "C49_partial",
    "C49_opaque",
    "C49_refuted"
   ],
   "note": "Refuted when a transparent production is cancelled after consuming input; proved otherwise, in particular for all grammars without transparent productions."
  },
  {
   "property": "C50",
   "status": "partial",
   "theorems": [
    "C50_depth",
    "C50_size_partial",
    "C50_size_parse_partial",
    "C50_size_refuted",
    "C50_cleared_refuted"
   ],
   "note": "depth proved; size also counts the nodes below the children of cancelled nodes, and is not reset by clear; the exact number is proved."
  },
  {
   "property": "C51",
   "status": "proved",
   "theorems": [
    "C51_navigation",
    "C51_root_siblings_refuted"
   ],
   "note": "All nodes of all trees; siblings() of the root is outside the claim and reads through null."
  },
  {
   "property": "C52",
   "status": "partial",
   "theorems": [
    "C52_position",
    "C52_parse_partial",
    "C52_empty_refuted"
   ],
   "note": "Proved under the documented requirements; parse_as_tree does not establish them for a root without children (refuted) or as in C49."
  },
  {
   "property": "C53",
   "status": "partial",
   "theorems": [
    "C53_storage",
    "C53_released",
    "C53_reuse_refuted",
    "C53_cancel_refuted",
    "C53_container_refuted"
   ],
   "note": "Refuted: cancelling an empty container at the end of a block, second container in an empty production at the end of a block, reuse of a tree with several blocks leaks. Proved for all other call sequences."
  },
  {
   "property": "C54",
   "status": "proved",
   "theorems": [
    "C54_tokens",
    "C54_find",
    "C54_children",
    "C54_node_position"
   ],
   "note": ""
  },
  {
   "property": "C67",
   "status": "partial",
   "theorems": [
    "C67_partial",
    "C67_refuted"
   ],
   "note": "Comparing a token node kind with a production node kind dereferences null (refuted); all other comparisons proved."
  },
  {
   "property": "C26",
   "status": "partial",
   "theorems": [
    "C26_pattern",
    "C26_branch_partial",
    "C26_rule_partial",
    "C26_reserved_sound",
    "C26_keyword",
    "C26_partition",
    "C26_suffix_refuted",
    "C26_unicode_utf32_partial",
    "C26_unicode_refuted"
   ],
   "note": "Identifier = maximal munch minus reserved words for reserve, reserve_prefix, reserve_containing with or without ASCII case folding; keywords; partition. Refuted for reserve_suffix with overlapping occurrences; with Unicode case folding proved for UTF-32, refuted for UTF-8 (the set matcher of C25_unicode_set_refuted)."
  },
  {
   "property": "C27",
   "status": "proved",
   "theorems": [
    "C27_until",
    "C27_literal_condition"
   ],
   "note": "Every condition, with and without or_eof; the word loop version is in C06."
  },
  {
   "property": "C28",
   "status": "partial",
   "theorems": [
    "C28_delimited",
    "C28_first_closing",
    "C28_word_loop_partial",
    "C28_literal_tokens",
    "C28_case_folding_refuted"
   ],
   "note": "Full claim proved for the loop over characters, and for the word loop unless a delimiter or escape token has case folding (refuted) or the limit is in the class (excluded by the documentation)."
  },
  {
   "property": "C29",
   "status": "proved",
   "theorems": [
    "C29_newline_eof_eol"
   ],
   "note": ""
  },
  {
   "property": "C17",
   "status": "proved",
   "theorems": [
    "C17_text",
    "C17_newline",
    "C17_code_units",
    "C17_code_points",
    "C17_bytes"
   ],
   "note": "Line and column numbers are unsigned (mod 2^32), as in the code."
  },
  {
   "property": "C18",
   "status": "proved",
   "theorems": [
    "C18_anchor",
    "C18_behind"
   ],
   "note": ""
  },
  {
   "property": "C19",
   "status": "partial",
   "theorems": [
    "C19_text",
    "C19_size",
    "C19_code_points",
    "C19_bytes_partial",
    "C19_bytes_refuted"
   ],
   "note": "Full claim proved for code unit and code point counting. With byte counting the last byte of a full line is treated as its newline (refuted). A begin found by code unit counting may be inside a code point."
  },
  {
   "property": "C68",
   "status": "proved",
   "theorems": [
    "C68_order"
   ],
   "note": ""
  },
  {
   "property": "C13",
   "status": "partial",
   "theorems": [
    "C13_builder",
    "C13_iterators",
    "C13_stdin",
    "C13_wide_partial",
    "C13_wide_refuted"
   ],
   "note": "Full claim for units of one byte (the only ones used by read_stdin and default_prompt); for wider units growing copies too few bytes (refuted), proved without growth."
  },
  {
   "property": "C14",
   "status": "partial",
   "theorems": [
    "C14_success",
    "C14_errors",
    "C14_resources",
    "C14_portable",
    "C14_contents",
    "C14_unit_size_refuted"
   ],
   "note": "Full claim for units of one byte and both implementations; for wider units a file size that is not a multiple of the unit violates a precondition (refuted)."
  },
  {
   "property": "C15",
   "status": "partial",
   "theorems": [
    "C15_partial",
    "C15_end_refuted",
    "C15_no_input_refuted",
    "C15_last_line_refuted",
    "C15_fgets_refuted"
   ],
   "note": "Every text of complete lines, every session. Refuted: end of input after a complete line, no input, last line without newline, with fgets lines as long as the write area and NUL."
  },
  {
   "property": "C16",
   "status": "proved",
   "theorems": [
    "C16_iteration",
    "C16_reader",
    "C16_separator",
    "C16_ranges"
   ],
   "note": "The order of the (bidirectional) iterators is the number of increments from the begin."
  },
  {
   "property": "C69",
   "status": "proved",
   "theorems": [
    "C69_builder",
    "C69_stdin"
   ],
   "note": ""
  },
  {
   "property": "C55",
   "status": "partial",
   "theorems": [
    "C55_iteration",
    "C55_lookup",
    "C55_distinct",
    "C55_longest",
    "C55_token",
    "C55_identifier_partial",
    "C55_identifier_names_partial",
    "C55_identifier_refuted",
    "C55_identifier_folding_refuted"
   ],
   "note": "Lookup, iteration and longest match for every table without case folding, with ASCII folding, and with Unicode folding on UTF-32. symbol(identifier) proved if every name is an identifier; refuted otherwise. Unicode folding of UTF-8/16 tables has the failure of C25."
  },
  {
   "property": "C56",
   "status": "proved",
   "theorems": [
    "C56_bytes",
    "C56_padding",
    "C56_bint",
    "C56_bint_token",
    "C56_bint_bijective",
    "C56_bits"
   ],
   "note": ""
  },
  {
   "property": "C64",
   "status": "partial",
   "theorems": [
    "C64_user_partial",
    "C64_predefined",
    "C64_raw",
    "C64_rule",
    "C64_small_enum_refuted"
   ],
   "note": "Proved for int and every enumeration of at least 17 bits or unsigned 16 bits; refuted for signed 8/16 bit and unsigned 8 bit enumerations."
  },
  {
   "property": "C57",
   "status": "proved",
   "theorems": [
    "C57_list",
    "C57_collection",
    "C57_concat",
    "C57_collect",
    "C57_collect_void",
    "C57_fold",
    "C57_count",
    "C57_aggregate",
    "C57_callback"
   ],
   "note": "The callback given a single existing container (or nullopt) forwards it; agreement of callback and sink is for element arguments."
  },
  {
   "property": "C58",
   "status": "proved",
   "theorems": [
    "C58_bind",
    "C58_bind_sink",
    "C58_compose",
    "C58_compose_sink"
   ],
   "note": ""
  },
  {
   "property": "C59",
   "status": "partial",
   "theorems": [
    "C59_sink",
    "C59_callback",
    "C59_roundtrip_partial",
    "C59_ascii_case_folding",
    "C59_unicode_case_folding_partial",
    "C59_unicode_case_folding_utf32",
    "C59_ill_formed_refuted"
   ],
   "note": "Concatenation proved for all arguments; reading back and Unicode folding for all code points except those UTF-16 decodes wrongly (C03). Folding of ill-formed text truncates it (refuted)."
  },
  {
   "property": "C63",
   "status": "proved",
   "theorems": [
    "C63_stays_failed",
    "C63_needs_recovery",
    "C63_recovery",
    "C63_parse",
    "C63_branch",
    "C63_peek",
    "C63_discard",
    "C63_finish",
    "C63_events",
    "C63_rule",
    "C63_rule_parse",
    "C63_own_error"
   ],
   "note": "For every sequence of operations; the status claim under the hypothesis of C33 (find and recover only used to recover)."
  },
  {
   "property": "C60",
   "status": "partial",
   "theorems": [
    "C60_code_point",
    "C60_single_byte",
    "C60_bytes",
    "C60_unicode_partial",
    "C60_unicode_refuted",
    "C60_injective_utf8",
    "C60_injective_single_byte",
    "C60_injective_bytes",
    "C60_injective_wf_partial",
    "C60_injective_refuted",
    "C60_node_partial",
    "C60_node_refuted",
    "C60_width",
    "C60_width_code_point"
   ],
   "note": "Every unit shown, text readable back and width right for all flags; missing: UTF-8 text with bytes F8..FF (cut off there), UTF-16 code points decoded wrongly (C03), options of node-encoded lexemes (dropped). Injectivity needs unexpanded tabs and no width limit."
  },
  {
   "property": "C61",
   "status": "partial",
   "theorems": [
    "C61_partial",
    "C61_code_point_partial",
    "C61_pointer_partial",
    "C61_report_partial",
    "C61_annotation_partial",
    "C61_message_partial",
    "C61_tree_partial",
    "C61_trace_partial",
    "C61_refuted"
   ],
   "note": "Any iterator without colors, interchangeable copies (back_inserter) with colors. Refuted: a pointer with colors."
  },
  {
   "property": "C62",
   "status": "partial",
   "theorems": [
    "C62_report_partial",
    "C62_annotation_partial",
    "C62_ends",
    "C62_annotation_ends",
    "C62_sink",
    "C62_refuted"
   ],
   "note": "Layout, line number, marked range and number of marks for all errors, encodings and options; the marks are below the marked part up to line 9999 (refuted from line 10000 on)."
  },
  {
   "property": "C70",
   "status": "proved",
   "theorems": [
    "C70_drawn",
    "C70_lines",
    "C70_readable",
    "C70_empty"
   ],
   "note": "For every tree made by the builder; names without escape characters, reading back also without newlines in names."
  },
  {
   "property": "C71",
   "status": "partial",
   "theorems": [
    "C71_rows_partial",
    "C71_assertion",
    "C71_forward",
    "C71_single_line",
    "C71_parse",
    "C71_refuted",
    "C71_large_refuted"
   ],
   "note": "Rows proved for inputs of less than 9999999 units if no event is before the line on which a production has begun that was not cancelled: always if positions do not go back, on a single line, or if nothing fails; otherwise an assertion fails (refuted with a combination)."
  },
  {
   "property": "C72",
   "status": "proved",
   "theorems": [
    "C72_defined",
    "C72_class",
    "C72_class_read",
    "C72_category",
    "C72_ranges",
    "C72_predicates",
    "C72_groups",
    "C72_ascii",
    "C72_relations",
    "C72_minus_control"
   ],
   "note": "For the tables as they are in the repository, evaluated for every code point; UTF-16 for the code point lexy reads (C03). That the tables are those of Unicode 15.0 is not shown."
  },
  {
   "property": "C73",
   "status": "proved",
   "theorems": [
    "C73_fold",
    "C73_classes",
    "C73_literal",
    "C73_utf32",
    "C73_string",
    "C73_string_utf32"
   ],
   "note": "For the tables as they are in the repository. Literals and strings for texts lexy reads back (C03); literal sets on UTF-8 and UTF-16 have the failure of C25."
  },
  {
   "property": "C74",
   "status": "partial",
   "theorems": [
    "C74",
    "C74_empty_production_refuted",
    "C74_empty_input_refuted",
    "C74_recovery_refuted"
   ],
   "note": "Soundness, completeness, absence of undefined behaviour, reported failures and coverage proved for trees whose productions have children and whose tokens follow each other (as trees of parses do, C52). Missing: empty productions and empty inputs (undefined behaviour), recovery from a failing child rule (the rule fails instead), each refuted. Lexeme rules are any function that stays in the lexeme."
  },
  {
   "property": "C75",
   "status": "partial",
   "theorems": [
    "C75_not_followed",
    "C75_ascii_folding",
    "C75_utf32_folding",
    "C75_unicode_folding",
    "C75_followed_partial",
    "C75_in_set",
    "C75_followed_refuted"
   ],
   "note": "not_followed_by is proved in full on range inputs, with every case folding. Refuted for followed_by: it also matches when no character follows at all (end of input, ill-formed text); proved otherwise. In Unicode case-folded sets over UTF-8/UTF-16 see C25."
  },
  {
   "property": "C76",
   "status": "partial",
   "theorems": [
    "C76_equal_partial",
    "C76_backslash_refuted",
    "C76_ff_refuted",
    "C76_signed_refuted"
   ],
   "note": "Proved for 8-bit inputs whose tokens have no backslash, no byte 0xFF and, if the character type is signed, no byte above 0x7F, and for names without quotes and line breaks. Each of the exceptions on tokens is refuted: ambiguous spelling or undefined behaviour of isprint."
  },
  {
   "property": "C77",
   "status": "proved",
   "theorems": [
    "C77_optional",
    "C77_lifetimes"
   ],
   "note": "Move operations of the held type are taken not to throw, as the holder declares; what is left in a moved-from object is left open."
  },
  {
   "property": "C78",
   "status": "proved",
   "theorems": [
    "C78_inside",
    "C78_error_inside",
    "C78_until_error",
    "C78_consumes",
    "C78_engine",
    "C78_ff_refuted"
   ],
   "note": "On range inputs. C78_ff_refuted shows why a literal must not contain the unit that marks the end of the input. Literals with Unicode case folding are not among the tokens shown to consume something."
  },
  {
   "property": "C79",
   "status": "proved",
   "theorems": [
    "C79_ends",
    "C79_consumes",
    "C79_checked",
    "C79_tokens",
    "C79_needed"
   ],
   "note": "C79_ends states the conditions on loops by what their rules do, C79_checked by the form of the rules (C79_consumes connects them; C79_tokens gives the token rules of the library that consume). The conditions are sufficient, not necessary; C79_needed shows two grammars without them that never end."
  },
  {
   "property": "C80",
   "status": "proved",
   "theorems": [
    "C80_part",
    "C80_around",
    "C80_inside",
    "C80_tokens"
   ],
   "note": "For every grammar of the rule engine whose tokens do not look back; C80_tokens shows that of all token rules of the library. Context variables start with a number, a flag or nothing, as those of the library do."
  },
  {
   "property": "C81",
   "status": "proved",
   "theorems": [
    "C81_accepts",
    "C81_unambiguous",
    "C81_decides",
    "C81_recovery"
   ],
   "note": "For the rules listed in the statement (LangSpec.described); loops whose rule is not a choice or with break_ inside other rules, no_whitespace, capture(rule), return_, context variables, token(rule), scanners and actions are not described.  The description (LangSpec.Derives, Cond) does not mention events, continuations, fuel or recovery."
  },
  {
   "property": "C82",
   "status": "partial",
   "theorems": [
    "C82_name_partial",
    "C82_namespaces",
    "C82_template_refuted",
    "C82_is",
    "C82_is_partial",
    "C82_is_refuted",
    "C82_strings",
    "C82_c_string",
    "C82_constructors",
    "C82_access",
    "C82_empty_refuted"
   ],
   "note": "Names proved for all qualified names of identifiers; refuted for types with template arguments, which keep their namespace. error::is proved for tags of one top-level namespace; refuted for tags of different namespaces with the same name. Strings in full, except that asking an empty string for a prefix violates a precondition (refuted). How a compiler spells a type is taken from type_name.hpp."
  },
  {
   "property": "C83",
   "status": "partial",
   "theorems": [
    "C83_reader",
    "C83_empty",
    "C83_reversed",
    "C83_zstring",
    "C83_unterminated",
    "C83_units",
    "C83_end_partial",
    "C83_end_text",
    "C83_end_refuted",
    "C83_bom",
    "C83_bom_text_refuted",
    "C83_bom_chars"
   ],
   "note": "Inputs and readers over pointers in full. The end marker: refuted for units 0xFF of ASCII and UTF-8 inputs and 0xFFFFFFFF of UTF-32 inputs, proved for everything else and for all texts that encode characters. Byte order marks: proved for inputs of bytes; on input of any other character type the literal violates an assertion (refuted)."
  },
  {
   "property": "C84",
   "status": "partial",
   "theorems": [
    "C84_size",
    "C84_index",
    "C84_made_partial",
    "C84_made_refuted",
    "C84_clamped_partial",
    "C84_clamped_refuted",
    "C84_ends",
    "C84_equal"
   ],
   "note": "All but lexeme(pos, size) and next_clamped is proved in full. These two count in a 32-bit unsigned for iterators without subtraction: refuted for sizes of 2^32 or more, proved for smaller ones."
  },
  {
   "property": "C85",
   "status": "proved",
   "theorems": [
    "C85_same",
    "C85_never_other",
    "C85_indices",
    "C85_terminated"
   ],
   "note": "The characters the compiler passes to a literal operator template are taken as given.  With class types as template arguments the loop over the characters counts with 32 bits: strings of 2^32 or more characters, which no compiler takes, are outside of C85_same."
  }
 ]
}