{"id": "C01", "title": "UTF-8 encode/decode round trip", "statement": "For every Unicode scalar value, encoding it as UTF-8 (what lexy::as_string does with a code_point) and then reading it with dsl::code_point yields success, the same code point, and consumes exactly the encoded units, no matter what follows them in the input.", "quantifier": "all 1,112,064 scalar values and all following inputs", "why_tests_cant": "the product of all code points with all possible continuations is infinite; tests sample a few code points", "anchors": ["include/lexy/_detail/code_point.hpp: encode_code_point, parse_code_point", "include/lexy/callback/string.hpp: _as_string::operator()(code_point)", "include/lexy/dsl/code_point.hpp"]}
{"id": "C02", "title": "UTF-8 decoding accepts only well-formed sequences", "statement": "Whenever dsl::code_point succeeds on a UTF-8 input, the code point it produces is a Unicode scalar value (at most 0x10FFFF and not a surrogate) and the consumed units are precisely its shortest UTF-8 encoding; overlong forms, surrogates, out-of-range and truncated sequences are reported as errors.", "quantifier": "all UTF-8 inputs (arbitrary byte sequences)", "why_tests_cant": "every byte string is a possible input", "anchors": ["include/lexy/_detail/code_point.hpp: parse_code_point"]}
{"id": "C03", "title": "UTF-16 encode/decode round trip", "statement": "For every Unicode scalar value, encoding it as UTF-16 and reading it back with dsl::code_point yields the same value and consumes exactly the encoded units.", "quantifier": "all scalar values and all following inputs", "why_tests_cant": "needs all supplementary planes; the test-suite only uses U+1F642-like code points in plane 1", "anchors": ["include/lexy/_detail/code_point.hpp: encode_code_point, parse_code_point (utf16_encoding)"]}
{"id": "C04", "title": "UTF-32 and ASCII code points", "statement": "On UTF-32 input dsl::code_point succeeds exactly on scalar values and returns the unit unchanged; on ASCII input it succeeds exactly on units up to 0x7F; encoding followed by reading is the identity on the representable values.", "quantifier": "all code units and inputs", "why_tests_cant": "the unit domain is 2^32 values in every context", "anchors": ["include/lexy/_detail/code_point.hpp: encode_code_point, parse_code_point"]}
{"id": "C05", "title": "Code point reader classifies end of input correctly", "statement": "Reading a code point reports end-of-input only when the reader is at the end of the input, and otherwise reading-plus-recovery always moves the reader forward by between one and four units without passing the end of the input.", "quantifier": "all inputs of every Unicode encoding and every position in them", "why_tests_cant": "a single unusual lead byte in any context is enough to violate it", "anchors": ["include/lexy/_detail/code_point.hpp: parse_code_point, recover_code_point", "include/lexy/visualize.hpp: visualize_to(lexeme)"]}
{"id": "C06", "title": "Word-at-a-time scanning equals unit-at-a-time scanning", "statement": "Scanning a lexy::buffer with the word-parallel (SWAR) implementation used for runs of ASCII character classes, digits and dsl::until gives exactly the same match end and the same success/failure as scanning one code unit at a time.", "quantifier": "all buffer contents, start positions and supported unit widths", "why_tests_cant": "2^64 word values times all alignments of the interesting character within a word", "anchors": ["include/lexy/_detail/swar.hpp", "include/lexy/dsl/ascii.hpp: char_class_match_swar", "include/lexy/dsl/until.hpp", "include/lexy/dsl/digit.hpp", "include/lexy/dsl/delimited.hpp"]}
{"id": "C07", "title": "Exactness of the word-level predicates", "statement": "The word predicates used by the scanners are exact: 'has a zero unit', 'has a unit equal to c' and 'has a unit less than n' (for n up to 128) answer true if and only if some unit of the word satisfies the condition, and the position computed for the first differing unit of two words is the first index at which they differ.", "quantifier": "all words of 8/4/2 units of width 8/16/32 bits", "why_tests_cant": "2^64 words", "anchors": ["include/lexy/_detail/swar.hpp: swar_has_zero, swar_has_char, swar_has_char_less, swar_find_difference, swar_fill, swar_pack"]}
{"id": "C08", "title": "Character-class word filters are sound", "statement": "If the word filter of a predefined ASCII class answers 'all match', then each of the units in the word individually belongs to the class; carries and borrows between neighbouring units never produce a false positive.", "quantifier": "all words and every predefined ASCII class with a word filter", "why_tests_cant": "2^64 words per class", "anchors": ["include/lexy/dsl/ascii.hpp: _control,_lower,_upper,_alpha,_alphau,_digit,_alnum,_word,_graph,_print,_char char_class_match_swar"]}
{"id": "C09", "title": "Buffer readers never read outside the allocation", "statement": "For a lexy::buffer of any size and encoding, every unit read and every word read issued at a position reachable by bumping while the current unit is not the end marker stays inside the memory allocated for the buffer, and reading at or after the end of the contents gives the end marker until the end of the allocation.", "quantifier": "all buffer sizes, unit widths and reachable positions", "why_tests_cant": "all sizes modulo the word size, including zero", "anchors": ["include/lexy/input/buffer.hpp: _detail::buffer allocation, _br reader", "include/lexy/_detail/swar.hpp: round_size_for_swar, swar_reader_base"]}
{"id": "C10", "title": "Buffer copies preserve contents", "statement": "Constructing a buffer from a range, from (pointer,size), with a builder, copying and moving it: the resulting buffer holds exactly the given units in order, with the given size.", "quantifier": "all contents, encodings and operation sequences", "why_tests_cant": "all sizes and histories of operations", "anchors": ["include/lexy/input/buffer.hpp: buffer constructors, builder, operator=, release"]}
{"id": "C11", "title": "make_buffer_from_raw decodes endianness", "statement": "make_buffer_from_raw<Encoding, Endianness> on n bytes produces floor(n/width) units whose values are the big- respectively little-endian interpretation of the consecutive byte groups.", "quantifier": "all byte strings, encodings and endianness values", "why_tests_cant": "all byte strings", "anchors": ["include/lexy/input/buffer.hpp: _make_buffer, make_buffer_from_raw"]}
{"id": "C12", "title": "Byte-order-mark handling", "statement": "With encoding_endianness::bom, a leading byte-order mark of the encoding is removed and selects the byte order; in every other case no input byte is dropped and the documented default byte order is used.", "quantifier": "all byte strings and encodings", "why_tests_cant": "one must exclude every non-BOM prefix, not just try a few", "anchors": ["include/lexy/input/buffer.hpp: _make_buffer<Encoding, encoding_endianness::bom>"]}
{"id": "C13", "title": "Incremental reading preserves everything read", "statement": "Input assembled incrementally (lexy::read_file on large files, read_stdin, shell) consists exactly of the concatenation of the chunks the operating system delivered, however they were split, across every buffer growth; positions taken before a growth denote the same character afterwards.", "quantifier": "all chunk sequences (histories of reads of arbitrary sizes) and unit widths", "why_tests_cant": "the number of chunkings and growth points is unbounded", "anchors": ["include/lexy/_detail/buffer_builder.hpp: buffer_builder, stable_iterator", "src/input/file.cpp: read_file, read_stdin"]}
{"id": "C14", "title": "read_file reports the operating system's answer", "statement": "lexy::read_file returns success with exactly the bytes of the file when every system call succeeds, returns file_not_found / permission_denied / os_error according to the failing call, and closes the descriptor and releases the mapping exactly once on every path.", "quantifier": "all file sizes (in particular around the 4096, 32768 and mapping thresholds) and all sequences of system-call outcomes", "why_tests_cant": "needs all sizes and all failure points", "anchors": ["src/input/file.cpp: read_file", "include/lexy/input/file.hpp: read_file_result"]}
{"id": "C15", "title": "Interactive shell input is the text typed", "statement": "The input of lexy_ext::shell behaves like the concatenation of the lines obtained from the prompt: peeking reports end of input exactly when the prompt is exhausted and the reader never returns a character that was not typed.", "quantifier": "all sequences of lines, line lengths and end-of-file points", "why_tests_cant": "depends on the history of prompt answers and on every line length", "anchors": ["include/lexy_ext/shell.hpp: shell::input, append_next_line, default_prompt"]}
{"id": "C16", "title": "argv input is the NUL-separated arguments", "statement": "Iterating lexy::argv_input yields the characters of the arguments separated by a single NUL character; increment and decrement are inverse and the iterator order is the order of positions.", "quantifier": "all argument vectors (including empty arguments) and all positions", "why_tests_cant": "all argument vectors", "anchors": ["include/lexy/input/argv_input.hpp: argv_iterator, argv_sentinel, argv_input"]}
{"id": "C17", "title": "Line and column of a position", "statement": "get_input_location(input, pos) reports as line one plus the number of newlines before the position and as column one plus the number of counted units (code points, code units or bytes) between the start of that line and the position.", "quantifier": "all inputs, all positions on a counting boundary, all counting policies", "why_tests_cant": "all inputs with all mixtures of LF, CRLF and multi-unit code points", "anchors": ["include/lexy/input_location.hpp: get_input_location, code_unit_location_counting, code_point_location_counting, byte_location_counting"]}
{"id": "C18", "title": "Location lookup from an anchor is consistent", "statement": "Computing the location of a position from any anchor obtained at an earlier position gives the same line and column as computing it from the beginning of the input.", "quantifier": "all inputs and all pairs of positions with the anchor not after the target", "why_tests_cant": "all histories of incremental lookups", "anchors": ["include/lexy/input_location.hpp: input_location_anchor, get_input_location"]}
{"id": "C19", "title": "Line annotation partitions the line", "statement": "get_input_line_annotation splits the line containing the location into before, annotated and after parts that are adjacent, cover exactly that line (with the newline belonging to the annotation only if flagged), and never split a code point.", "quantifier": "all inputs, begin locations and end positions/sizes", "why_tests_cant": "all inputs and all positions, including inside CRLF or a multi-unit code point", "anchors": ["include/lexy/input_location.hpp: get_input_line_annotation, get_input_line, _detail::find_cp_boundary"]}
{"id": "C20", "title": "Integer parsing is exact or reports overflow", "statement": "dsl::integer<T, Base> applied to a digit string produces the mathematical value of the digits when it is at most the maximum of T, and otherwise reports lexy::integer_overflow; it never wraps around.", "quantifier": "all digit strings of any length (with leading zeros and separators), all bases and all bounds", "why_tests_cant": "digit strings are unbounded in length", "anchors": ["include/lexy/dsl/integer.hpp: _int_p, _bounded_integer_traits, _unbounded_integer_traits, integer"]}
{"id": "C21", "title": "Digit sequences match the documented language", "statement": "dsl::digits<Base> matches the longest non-empty run of digits of the base, .sep(S) additionally permits single separators strictly between digits, and .no_leading_zero() rejects a zero followed by further digits; n_digits<N> matches exactly N digits.", "quantifier": "all inputs, bases and counts", "why_tests_cant": "all inputs", "anchors": ["include/lexy/dsl/digit.hpp: _digits, _digits_s, _digits_t, _digits_st, _ndigits, digit_base policies"]}
{"id": "C22", "title": "Character classes form a Boolean algebra", "statement": "A code point matches A / B iff it matches A or B, -A iff it does not match A, A - B iff it matches A but not B, and A & B iff it matches both; this holds for every nesting and for ASCII and non-ASCII code points alike.", "quantifier": "all character class expressions and all code points", "why_tests_cant": "expressions nest without bound and code points range over 0x110000 values", "anchors": ["include/lexy/dsl/char_class.hpp: _calt, _ccomp, _cminus, _cand, ascii_set, compressed_ascii_set"]}
{"id": "C23", "title": "Literal matching is prefix matching", "statement": "dsl::lit<\"...\"> succeeds exactly when the remaining input starts with the literal and then consumes exactly the literal; on failure the reported error carries the number of leading units that did match.", "quantifier": "all literals and inputs, for range and buffer inputs, all encodings", "why_tests_cant": "all inputs and literals", "anchors": ["include/lexy/dsl/literal.hpp: match_literal, _lit, _literal::tp"]}
{"id": "C24", "title": "Literal sets take the longest match", "statement": "dsl::literal_set / symbol_table / operator choice recognise the longest literal of the set that is a prefix of the remaining input, independent of the order in which the literals are listed.", "quantifier": "all sets of literals, all listing orders and all inputs", "why_tests_cant": "exponentially many sets and all inputs", "anchors": ["include/lexy/dsl/literal.hpp: lit_trie, lit_trie_matcher, _lset", "include/lexy/dsl/symbol.hpp: _sym matching", "include/lexy/dsl/operator.hpp: parse_op"]}
{"id": "C25", "title": "Case folding only affects comparison", "statement": "ascii::case_folding(rule) makes the literal match regardless of the case of ASCII letters, leaves all other characters significant, and never changes the consumed text or positions; unicode::simple_case_folding does so for code points, for single literals and literal sets alike.", "quantifier": "all inputs and literals", "why_tests_cant": "all inputs; interaction with backtracking is not covered by examples", "anchors": ["include/lexy/dsl/case_folding.hpp: _acfrm, _sucfrm", "include/lexy/dsl/literal.hpp: lit_trie_matcher"]}
{"id": "C26", "title": "Identifiers and keywords partition", "statement": "An identifier with reserve(keywords) succeeds exactly on maximal runs of identifier characters that are not a reserved word; a keyword succeeds exactly when the maximal run is the keyword; hence at any position at most one of them matches.", "quantifier": "all identifier classes, keyword sets and inputs", "why_tests_cant": "all inputs", "anchors": ["include/lexy/dsl/identifier.hpp: _id, _idk, _idp, _ids, _idrp, _idkw"]}
{"id": "C27", "title": "Until matches the shortest prefix ending in the condition", "statement": "dsl::until(cond) consumes through the end of the first occurrence of the condition and fails exactly when there is none (or_eof: consumes everything instead).", "quantifier": "all inputs and conditions", "why_tests_cant": "all inputs and all positions of first match", "anchors": ["include/lexy/dsl/until.hpp: _until, _until_eof"]}
{"id": "C28", "title": "Delimited content is recovered verbatim", "statement": "dsl::delimited(open, close)(char) with escapes passes to its sink exactly the text between the delimiters, in order and without gaps or overlaps, ending at the first unescaped closing delimiter or error.", "quantifier": "all inputs, delimiters and escape rules", "why_tests_cant": "all inputs", "anchors": ["include/lexy/dsl/delimited.hpp: _del, _del_chars, escape"]}
{"id": "C29", "title": "Newline and end-of-line", "statement": "dsl::newline matches exactly LF or CRLF, dsl::eof matches exactly at the end of input, and dsl::eol matches exactly where one of them does; eof consumes nothing.", "quantifier": "all inputs", "why_tests_cant": "all inputs", "anchors": ["include/lexy/dsl/newline.hpp", "include/lexy/dsl/eof.hpp"]}
{"id": "C30", "title": "The parser consumes a prefix and never moves past the end", "statement": "Whatever the grammar and the input, every position reported by a parse (tokens, errors, remaining input) lies within the input and, along the sequence of tokens consumed, positions never decrease.", "quantifier": "all grammars built from the modelled combinators and all inputs", "why_tests_cant": "grammars and inputs are both unbounded", "anchors": ["include/lexy/dsl/base.hpp", "include/lexy/dsl/token.hpp", "include/lexy/dsl/sequence.hpp", "include/lexy/dsl/choice.hpp", "include/lexy/dsl/list.hpp", "include/lexy/dsl/recover.hpp", "include/lexy/action/base.hpp"]}
{"id": "C31", "title": "Tokens tile the consumed input", "statement": "The token events produced by a parse are contiguous: each begins where the previous ended, and together they spell out exactly the consumed part of the input - also when errors were recovered from.", "quantifier": "all grammars and all inputs", "why_tests_cant": "must hold for every recovery path", "anchors": ["include/lexy/dsl/token.hpp: token_parse", "include/lexy/dsl/whitespace.hpp", "include/lexy/dsl/recover.hpp: _find, _tryt", "include/lexy/action/parse_as_tree.hpp"]}
{"id": "C32", "title": "Parse events are well nested", "statement": "Production start/finish/cancel, recovery start/finish/cancel and operation chain events delivered to a handler are properly nested and every start has exactly one matching end, on success and on failure alike.", "quantifier": "all grammars, inputs and failure points", "why_tests_cant": "all failure points in all grammars", "anchors": ["include/lexy/dsl/production.hpp", "include/lexy/dsl/recover.hpp", "include/lexy/dsl/expression.hpp", "include/lexy/action/base.hpp: _do_action"]}
{"id": "C33", "title": "No silent failure", "statement": "If an action fails (match false, validate/parse without value) at least one error was reported through the error callback; conversely a parse that reports no error succeeds.", "quantifier": "all grammars and inputs", "why_tests_cant": "every failing path in every combinator", "anchors": ["include/lexy/action/match.hpp", "include/lexy/action/validate.hpp", "include/lexy/action/parse.hpp", "include/lexy/dsl/*.hpp: report_error paths"]}
{"id": "C34", "title": "match, validate, parse and parse_as_tree agree", "statement": "For the same grammar and input, lexy::match is true iff lexy::validate reports zero errors, lexy::parse has a value iff validate is not a fatal error, the error callbacks are called with the same errors in the same order, and parse_as_tree reports the same status.", "quantifier": "all grammars and inputs", "why_tests_cant": "pairwise comparison over all inputs", "anchors": ["include/lexy/action/match.hpp: _mh", "include/lexy/action/validate.hpp: _vh", "include/lexy/action/parse.hpp: _ph", "include/lexy/action/parse_as_tree.hpp: _pth"]}
{"id": "C35", "title": "A branch that is not taken leaves no trace", "statement": "When a branch rule's condition does not match, trying it consumes nothing and has no lasting effect: the choice / optional / list containing it continues as if the branch had not been attempted, apart from 'backtracked' debug events.", "quantifier": "all branch rules and inputs", "why_tests_cant": "all nested branches and inputs", "anchors": ["include/lexy/dsl/branch.hpp", "include/lexy/dsl/choice.hpp", "include/lexy/dsl/option.hpp", "include/lexy/dsl/if.hpp", "include/lexy/dsl/production.hpp: bp"]}
{"id": "C36", "title": "Choice is ordered and commits", "statement": "a | b | c parses the first alternative whose branch condition matches, never reconsiders after committing even if it fails later, and reports exhausted_choice exactly when no condition matches.", "quantifier": "all choices and inputs", "why_tests_cant": "all inputs", "anchors": ["include/lexy/dsl/choice.hpp: _chc"]}
{"id": "C37", "title": "Lookahead does not consume", "statement": "peek, peek_not and lookahead leave the reader where it was when they succeed, so that the rule after them sees the same input; peek and peek_not succeed exactly when the rule does / does not match there.", "quantifier": "all rules and inputs", "why_tests_cant": "all inputs", "anchors": ["include/lexy/dsl/peek.hpp", "include/lexy/dsl/lookahead.hpp"]}
{"id": "C38", "title": "Lists parse items separated as specified", "statement": "dsl::list(item, sep) accepts exactly item (sep item)*, list(item, trailing_sep) additionally one trailing separator; the sink receives the item values once each in input order; a forbidden trailing separator is reported and parsing goes on after it. After a duplicated separator a list with a terminator reports the missing item and goes on behind the second separator; a list of branch items without terminator reports the first one as trailing and ends behind it; with other items it fails with the error of the item. A list with a terminator only stops at the terminator, or gives up at the recovery limit or the end of the input.", "quantifier": "all item/separator rules and inputs", "why_tests_cant": "lists are unbounded", "anchors": ["include/lexy/dsl/list.hpp: _lst, _lstt", "include/lexy/dsl/separator.hpp"]}
{"id": "C39", "title": "Recovery resumes at the right place", "statement": "find(tokens) recovery skips to the first position at which one of the tokens matches (or stops before the limit / at the end), consuming exactly the skipped text as an error token; try_ runs the recovery only when its own rule failed.", "quantifier": "all token sets, limits and inputs", "why_tests_cant": "all inputs", "anchors": ["include/lexy/dsl/recover.hpp: _find, _reco, _tryt", "include/lexy/dsl/terminator.hpp"]}
{"id": "C40", "title": "Recursion limit", "statement": "dsl::recurse fails with max_recursion_depth_exceeded exactly when the current nesting of recursive productions has reached the limit - regardless of how much input was parsed, or how many errors were recovered from, before.", "quantifier": "all parse histories", "why_tests_cant": "depends on the whole history of the parse", "anchors": ["include/lexy/dsl/production.hpp: _recb, _depth_handler", "include/lexy/action/base.hpp: parse_context_control_block"]}
{"id": "C41", "title": "Whitespace is skipped after every token, except where disabled", "statement": "With a whitespace rule in the grammar, whitespace is skipped at the start and after every token, is never skipped inside token productions or no_whitespace(), and automatic skipping is in force again after them.", "quantifier": "all grammars and inputs, including failing and recovered no_whitespace()", "why_tests_cant": "needs every exit path", "anchors": ["include/lexy/dsl/whitespace.hpp: whitespace_parser, _wsn, _wsr"]}
{"id": "C42", "title": "Context variables are lexically scoped", "statement": "A context variable (counter, flag, identifier) is visible exactly from its create to the end of the enclosing production; the innermost creation with the same id wins, and after the production ends - successfully or not - the outer variable has the value it had been given by code that refers to it.", "quantifier": "all sequences of creates, updates and scope exits", "why_tests_cant": "all histories", "anchors": ["include/lexy/dsl/context_counter.hpp", "include/lexy/dsl/context_flag.hpp", "include/lexy/dsl/context_identifier.hpp", "include/lexy/action/base.hpp: parse_context_var"]}
{"id": "C43", "title": "Combinations accept every permutation", "statement": "dsl::combination(r1,...,rn) accepts the branches in every order each exactly once and reports a duplicate otherwise; partial_combination accepts every ordering of every subset; flags accumulates the bitwise or of the values.", "quantifier": "all permutations, subsets and inputs", "why_tests_cant": "n! orders", "anchors": ["include/lexy/dsl/combination.hpp: _comb", "include/lexy/dsl/flags.hpp"]}
{"id": "C44", "title": "Exact repetition counts", "statement": "dsl::times<N>/twice parse the rule exactly N times (with separators between), repeat(count) exactly count times, and the sink receives the results in order.", "quantifier": "all counts and inputs", "why_tests_cant": "all counts", "anchors": ["include/lexy/dsl/times.hpp", "include/lexy/dsl/repeat.hpp", "include/lexy/dsl/loop.hpp"]}
{"id": "C45", "title": "Expressions are parsed according to precedence and associativity", "statement": "The operation tree produced for an expression production has the input's operator/operand sequence as its in-order traversal and respects the declared levels: operands of an operator contain only tighter operators outside of parentheses, left-associative operators nest to the left, right-associative ones to the right.", "quantifier": "all operator tables and all token sequences", "why_tests_cant": "infinitely many expressions and operator tables", "anchors": ["include/lexy/dsl/expression.hpp: _expr, _binding_power, parse_lhs, parse_rhs"]}
{"id": "C46", "title": "Every expression of the declared grammar is accepted, uniquely", "statement": "If a token sequence has a reading permitted by the declared precedences and associativities (and operator nesting does not exceed the limit), the expression production accepts it and produces exactly that reading.", "quantifier": "all operator tables and token sequences", "why_tests_cant": "infinitely many expressions", "anchors": ["include/lexy/dsl/expression.hpp"]}
{"id": "C47", "title": "Operator nesting limit", "statement": "An expression is rejected with operator_nesting_level exactly when its operators nest deeper than max_operator_nesting; a long flat chain of operators does not count as nesting.", "quantifier": "all expressions", "why_tests_cant": "needs arbitrarily long chains", "anchors": ["include/lexy/dsl/expression.hpp: cur_nesting_level, max_operator_nesting"]}
{"id": "C48", "title": "Parse tree stores the productions and tokens that were parsed", "statement": "After a successful parse_as_tree, traversing the tree yields exactly the non-transparent productions and the tokens, nested and ordered as the parse events were delivered.", "quantifier": "all event sequences (all grammars and inputs)", "why_tests_cant": "all trees", "anchors": ["include/lexy/parse_tree.hpp: parse_tree::builder, traverse", "include/lexy/action/parse_as_tree.hpp"]}
{"id": "C49", "title": "Parse tree is lossless", "statement": "For a successful or recovered parse_as_tree, concatenating the lexemes of all token nodes in traversal order reproduces the entire input, including skipped, erroneous and remaining input.", "quantifier": "all grammars and inputs", "why_tests_cant": "every recovery and cancellation path", "anchors": ["include/lexy/action/parse_as_tree.hpp: _pth", "include/lexy/parse_tree.hpp: builder::token, cancel_production"]}
{"id": "C50", "title": "Parse tree size and depth", "statement": "size() is the number of nodes and depth() the length of the longest path, for trees built by any sequence of builder calls, including cancelled productions and containers.", "quantifier": "all builder call sequences", "why_tests_cant": "all histories of builder calls", "anchors": ["include/lexy/parse_tree.hpp: size, depth, builder::update_size_depth"]}
{"id": "C51", "title": "Navigation is consistent", "statement": "parent/children/siblings are mutually consistent: every child's parent is the node, the siblings of a node in order starting after it and wrapping around are the other children of its parent, and is_last_child holds exactly for the last.", "quantifier": "all trees and nodes", "why_tests_cant": "all trees", "anchors": ["include/lexy/parse_tree.hpp: node::parent, children, siblings, is_last_child, pt_node"]}
{"id": "C52", "title": "Position and covering lexeme", "statement": "node::position is the start of the first token of the subtree and covering_lexeme spans from it to the end of the last token of the subtree.", "quantifier": "all trees and nodes", "why_tests_cant": "all trees", "anchors": ["include/lexy/parse_tree.hpp: node::position, covering_lexeme"]}
{"id": "C53", "title": "Node storage is never overwritten", "statement": "Nodes allocated for a parse tree occupy pairwise disjoint memory inside allocated blocks; cancelling productions and containers releases only nodes that are no longer reachable, for any size of tree.", "quantifier": "all sequences of allocations and unwinds", "why_tests_cant": "depends on exact block fill levels reached only by particular histories", "anchors": ["include/lexy/parse_tree.hpp: pt_buffer (reserve, allocate, top, unwind, reset)"]}
{"id": "C54", "title": "Tree algorithms find what they document", "statement": "lexy_ext::tokens lists the token leaves in order, find_covering_node returns the token whose lexeme contains the position, child/children filter by kind, node_position is the begin of the first token or of the position token.", "quantifier": "all trees, positions and kinds", "why_tests_cant": "all trees", "anchors": ["include/lexy_ext/parse_tree_algorithm.hpp"]}
{"id": "C55", "title": "Symbol table lookup", "statement": "symbol_table.parse / try_parse returns the value mapped to exactly that string, for any sequence of map calls, and dsl::symbol(table) produces the value of the longest matching name.", "quantifier": "all tables and inputs", "why_tests_cant": "all tables", "anchors": ["include/lexy/dsl/symbol.hpp: symbol_table"]}
{"id": "C56", "title": "Binary integers and bit fields", "statement": "little_bint/big_bint<N> produce the value whose base-256 representation is the N bytes; bytes<N> matches exactly N bytes of the class; padding_bytes consumes N bytes and reports every wrong one; dsl::bits consumes exactly one byte iff every field matches its bits.", "quantifier": "all bytes and field layouts", "why_tests_cant": "all byte strings and layouts", "anchors": ["include/lexy/dsl/byte.hpp", "include/lexy/dsl/bits.hpp"]}
{"id": "C57", "title": "Sinks and folds preserve order and multiplicity", "statement": "as_list, concat, fold, fold_inplace, count, collect and callback-from-sink process their arguments exactly once and in order; the callback form and the sink form of the same object agree.", "quantifier": "all argument sequences", "why_tests_cant": "all argument sequences", "anchors": ["include/lexy/callback/container.hpp", "include/lexy/callback/fold.hpp", "include/lexy/callback/adapter.hpp"]}
{"id": "C58", "title": "Bound callbacks receive the arguments selected by placeholders", "statement": "lexy::bind(cb, args...) calls cb with each bound value in place and each placeholder replaced by the selected (mapped, defaulted or all) values, and composition f | g calls g on the result of f.", "quantifier": "all placeholder lists and argument lists", "why_tests_cant": "all combinations", "anchors": ["include/lexy/callback/bind.hpp", "include/lexy/callback/composition.hpp"]}
{"id": "C59", "title": "String building", "statement": "as_string as a sink yields the concatenation of the text of the characters, lexemes, strings and the encodings of the code points it was given, and reading that text as code points gives back the code points.", "quantifier": "all argument sequences", "why_tests_cant": "all argument sequences", "anchors": ["include/lexy/callback/string.hpp"]}
{"id": "C60", "title": "Visualization is complete and readable back", "statement": "visualize of a lexeme renders every unit of the lexeme (until the configured width), and in non-fancy mode two different well-formed texts are rendered differently; visualization_display_width is the number of characters printed.", "quantifier": "all lexemes, options and encodings", "why_tests_cant": "all texts", "anchors": ["include/lexy/visualize.hpp: visualize_to, visualization_display_width"]}
{"id": "C61", "title": "Output does not depend on the kind of output iterator", "statement": "visualize_to, error reports and write_color write the same characters whether the output iterator appends (back_inserter) or is a pointer into a buffer, and return the end of the written range.", "quantifier": "all texts and options, all output iterators", "why_tests_cant": "iterator kinds differ only in behaviour no existing test exercises", "anchors": ["include/lexy/visualize.hpp: write_color, write_str, write_format"]}
{"id": "C62", "title": "Error report structure", "statement": "The diagnostics written by lexy_ext::report_error underline exactly the annotated part: the underline starts below the first annotated character and has its display width (at least one, and one more if the range goes on behind the end of the input), and the reported line number is the line of the error.", "quantifier": "all inputs, error positions and options", "why_tests_cant": "all inputs", "anchors": ["include/lexy_ext/report_error.hpp: diagnostic_writer::write_annotation"]}
{"id": "C63", "title": "Scanner state machine", "statement": "lexy::scan and dsl::scan: after a failed operation the scanner stays failed and all further operations fail without consuming until error recovery is begun and finished; the result of finish() is a fatal error exactly if the scanner is not ok at the end. A scanner that is not failed does what the rule does in a grammar.", "quantifier": "all sequences of scanner operations", "why_tests_cant": "all operation histories", "anchors": ["include/lexy/dsl/scan.hpp: scanner", "include/lexy/action/scan.hpp"]}
{"id": "C64", "title": "Token kinds are identified by their raw value", "statement": "token_kind::from_raw(to_raw(k)) is k; a user kind of the documented range is accepted, given back unchanged by get and equal only to itself; predefined kinds never compare equal to user kinds, are pairwise different and have pairwise different names; the kind of a token rule is the first mapping, else the one attached to the rule.", "quantifier": "all token kinds", "why_tests_cant": "all 65536 raw values", "anchors": ["include/lexy/token.hpp: token_kind"]}
{"id": "C65", "title": "Lexemes", "statement": "A captured lexeme is exactly the text matched by the captured rule without trailing automatic whitespace, and its size equals the number of consumed units.", "quantifier": "all rules and inputs", "why_tests_cant": "all inputs", "anchors": ["include/lexy/dsl/capture.hpp", "include/lexy/lexeme.hpp"]}
{"id": "C66", "title": "Predefined ASCII classes have exactly the documented members", "statement": "Each predefined class of dsl::ascii (control, blank, newline, other space, space, digit, lower, upper, alpha, alphanumeric, word, punctuation, graph, print, character) and each digit base matches exactly the ASCII characters its documentation lists and nothing else.", "quantifier": "all classes and all characters", "why_tests_cant": "unit tests enumerate ASCII for a few classes but not every unit value of every width", "anchors": ["include/lexy/dsl/ascii.hpp", "include/lexy/dsl/digit.hpp: binary ... hex"]}
{"id": "C67", "title": "Node kinds compare by what the nodes are", "statement": "Comparing the kinds of two nodes of a parse tree is defined for all nodes and true exactly if both are tokens of the same kind or both are nodes of the same production; comparing a node kind with a token kind or with a production is true exactly if the node is such a token or production.", "quantifier": "all trees and all pairs of nodes", "why_tests_cant": "tests compare a few nodes of the same sort", "anchors": ["include/lexy/parse_tree.hpp: _pt_node_kind"]}
{"id": "C68", "title": "Locations compare like positions", "statement": "For two locations found in the same input, the comparison operators order them exactly as the positions they stand for, and a later position never gets an earlier location.", "quantifier": "all inputs shorter than 2^32-1 units, all pairs of positions, all counting policies", "why_tests_cant": "all pairs of positions of all inputs", "anchors": ["include/lexy/input_location.hpp: input_location::operator==, operator<, get_input_location"]}
{"id": "C69", "title": "Memory of incremental reading is released exactly once", "statement": "Whatever is read incrementally, however often the buffer grows, and whether or not reading succeeds: every block of memory allocated for it is freed exactly once, and never while it is in use.", "quantifier": "all histories of appending, growing and clearing, all unit widths, all streams and errors", "why_tests_cant": "all histories; leaks and double frees are not visible in results", "anchors": ["include/lexy/_detail/buffer_builder.hpp: buffer_builder::grow, ~buffer_builder", "src/input/file.cpp: read_stdin"]}
{"id": "C70", "title": "Drawings of parse trees show the tree", "statement": "Visualizing a parse tree writes one line for each node at most max_tree_depth levels below the root, in traversal order, with lines in front that show its place among its ancestors and siblings; the line has the name of the production, or the name of the token and its lexeme with visible spaces, and productions at the maximal depth have an ellipsis instead of children. Two trees drawn alike have the same structure, names and displayed lexemes up to that depth.", "quantifier": "all parse trees a builder can make, all names, inputs, encodings and options with max_tree_depth <= 32", "why_tests_cant": "tests draw a few small trees; the state of the lines depends on the whole path to a node", "anchors": ["include/lexy/visualize.hpp: visualize_to(tree)"]}
{"id": "C71", "title": "Traces show what a parse does", "statement": "Tracing a parse writes one row for each event up to max_tree_depth, in order: starts and ends of productions, operation chains and recoveries, tokens and backtracked input with their lexemes, errors with their messages, operations and debug messages. A row begins with the line and column of its event, followed by lines that show in which productions, chains and recoveries it happens; starts at the maximal depth have an ellipsis instead of what is inside.", "quantifier": "all event sequences of parses (all trees of nested events), all names, inputs, encodings, positions and options", "why_tests_cant": "tests trace a few parses on small inputs; whether a position is found depends on all productions started before", "anchors": ["include/lexy/action/trace.hpp: _detail::trace_writer, _th::event_handler, trace_action", "include/lexy/visualize.hpp: _detail::write_format"]}
{"id": "C72", "title": "Unicode classes match the documented code points", "statement": "Each class of dsl::unicode, dsl::code_point with a general category, a category group, ascii, bmp or noncharacter matches exactly the code points its documentation describes, and consumes exactly their encoding; the classes agree with their ASCII counterparts, are ordered and disjoint as documented (upper and lower are disjoint and alphabetic, space is blank, newline or other space, xid_start is in xid_continue, ...); code_point's predicates agree with general_category; no lookup reads outside of the tables.", "quantifier": "all 1114112 code points, all classes, all inputs and encodings", "why_tests_cant": "tests look up a few dozen code points", "anchors": ["include/lexy/_detail/unicode_database.hpp: property_index, category, binary_properties", "include/lexy/code_point.hpp: code_point", "include/lexy/dsl/unicode.hpp", "include/lexy/dsl/code_point.hpp"]}
{"id": "C73", "title": "Simple case folding is a folding", "statement": "simple_case_fold is defined for every value, idempotent, maps code points to code points and scalar values to scalar values, folds ASCII letters like ASCII case folding and maps only U+017F and U+212A to ASCII from outside of it, and keeps identifier characters identifier characters; consequently a literal with Unicode case folding matches exactly the texts of which it is the folded form, and folded strings are the text of the folded code points.", "quantifier": "all 32-bit values; all literals and texts of code points", "why_tests_cant": "tests fold a few dozen code points", "anchors": ["include/lexy/_detail/unicode_database.hpp: case_folding_offset", "include/lexy/code_point.hpp: simple_case_fold", "include/lexy/dsl/case_folding.hpp: _sucf", "include/lexy/callback/string.hpp: case_folding"]}
{"id": "C74", "title": "Parsing a parse tree matches its children", "statement": "Parsing a parse tree, or any node of one, as an input: the grammar sees exactly the children of the node in order, without those the whitespace rule matches, at every level. The parse succeeds without an error exactly when the rule matches that list of nodes: tnode and pnode match one node of the given kind, tnode with a rule needs the rule to match the whole lexeme, pnode with a rule needs the rule to match all children. A failure is always reported, and the tokens produced cover the text from the beginning of the first child to where the parse stopped without gaps. An empty input, an empty production, and a child rule that fails behave as documented.", "quantifier": "all trees made by a builder or a parse, all nodes as inputs, all grammars of node rules, sequences, choices, options, loops, eof and productions, all lexeme rules", "why_tests_cant": "tests parse a few trees with a few rules", "anchors": ["include/lexy/input/parse_tree_input.hpp: parse_tree_input, _ptr", "include/lexy/dsl/parse_tree_node.hpp: tnode, pnode", "include/lexy/parse_tree.hpp: parse_tree_input_traits"]}
{"id": "C75", "title": "A literal with a condition on the next character", "statement": "dsl::not_followed_by(lit, cc) matches exactly if the input starts with the literal and the next character is not in the class (including at the end of the input), and consumes exactly the literal; if a character of the class follows, the error is a follow_restriction at the end of the literal; if the literal is missing, the error is the literal's and nothing is consumed. If the literal ignores case, so does the class. followed_by(lit, cc) matches exactly if a character of the class follows. In literal sets, symbol tables and operators such a literal takes part exactly where the rule alone matches.", "quantifier": "all literals, classes, inputs, positions, encodings and case foldings", "why_tests_cant": "the restriction depends on all texts that can follow, in all encodings", "anchors": ["include/lexy/dsl/follow.hpp: not_followed_by, followed_by, follow_restriction", "include/lexy/dsl/case_folding.hpp: _cfl", "include/lexy/dsl/literal.hpp: lit_trie_matcher"]}
{"id": "C76", "title": "Comparing a parse tree with a description", "statement": "Comparing a parse tree with a lexy_ext::parse_tree_desc holds exactly if the tree is the described one: the same productions in the same places by name, the same tokens in the same places by the names of their kinds and by their characters. Calls of finish() at the end of the description may be left out. A test that compares trees this way passes only for the described tree, and the comparison itself is defined for every tree.", "quantifier": "all trees made by a builder or a parse, all descriptions, all inputs", "why_tests_cant": "tests of trees rely on this comparison; that different trees have different texts concerns all pairs of trees", "anchors": ["include/lexy_ext/parse_tree_doctest.hpp: parse_tree_desc, StringMaker", "include/lexy/parse_tree.hpp: traverse"]}
{"id": "C77", "title": "The value of a parse is held exactly once", "statement": "The holder in which the value of a production is built and moved into the result of an action behaves like an optional over every sequence of default construction, emplacing (also twice, also when the constructor or callback throws), move construction, move assignment (also to itself) and destruction: it reports a value exactly if one was emplaced in or moved to it, dereferencing gives that value, no object is constructed over a live one or used or destroyed when it is not alive, and once all holders are destroyed every object constructed has been destroyed exactly once.", "quantifier": "all sequences of operations on any number of holders, all values, for trivially copyable types, other types, references and void", "why_tests_cant": "leaks and double destruction depend on the history of operations; tests try a few sequences", "anchors": ["include/lexy/_detail/lazy_init.hpp: lazy_init, _lazy_init_storage_trivial, _lazy_init_storage_non_trivial, lazy_init<T&>, lazy_init<void>", "include/lexy/action/base.hpp: _pc::value, do_action", "include/lexy/action/parse.hpp: parse_result"]}
{"id": "C78", "title": "Token rules end and stay inside the input", "statement": "Every token rule of the library (literals and literal sets with any case folding, character classes, identifier patterns, keywords, until, any, the digit rules with separators, follow restrictions, bytes and bits, and these with another error) terminates on every input, also on ill-formed text: it consumes at most the rest of the input, and its error lies in the input. When until fails it is at the end of the input, its condition does not match there and the error is the condition's. A token made of characters, digits or bytes consumes at least one unit when it matches, so a loop over it ends. What is proved about rules for arbitrary tokens therefore holds for grammars made of them. Literals must be text of the encoding.", "quantifier": "all token rules (nested in any way), encodings, inputs, positions and case folding tables", "why_tests_cant": "token rules nest and the inputs are unbounded; reads past the end of a buffer usually go unnoticed in a test", "anchors": ["include/lexy/dsl/token.hpp: token_base, _tokk, _toke", "include/lexy/dsl/base.hpp: try_match_token", "include/lexy/dsl/until.hpp: _until", "include/lexy/dsl/any.hpp: _any", "include/lexy/dsl/literal.hpp: _lit, _lset", "include/lexy/dsl/digit.hpp: _digits_st, _ndigits_s"]}
{"id": "C79", "title": "Parsing ends", "statement": "Parsing every production of a grammar ends, on every input (also wrong, empty or deeply nested input), provided every round of a loop (loop, while_, list, flags, combination, whitespace) moves on, productions refer to themselves only through recurse and recurse_branch, the condition of a production is not again itself, and tokens and whitespace do not recurse. Recursion itself need not consume anything: the limit on its depth ends it. Error recovery, also in lists with a terminator, ends. That loops move on follows from the grammar: their rule contains, in a place that is always parsed, a token that does not match the empty string. Without the conditions parsing can run forever.", "quantifier": "all inputs and all grammars meeting the conditions, with arbitrary token rules", "why_tests_cant": "no test run shows that a parser ends on all other inputs; an endless loop needs a particular combination of grammar and input", "anchors": ["include/lexy/dsl/loop.hpp: _loop, _whl", "include/lexy/dsl/list.hpp: _lst::_loop, _lstt::_loop", "include/lexy/dsl/production.hpp: _prd, _recb, _rec", "include/lexy/dsl/whitespace.hpp: ws_production, _skip_ws", "include/lexy/dsl/recover.hpp: _reco, _find", "include/lexy/dsl/combination.hpp: _comb", "include/lexy/dsl/flags.hpp: _flags", "include/lexy/action/base.hpp: do_action"]}
{"id": "C80", "title": "Parsing a part of an input", "statement": "Parsing a part of an input through lexeme_input or partial_input does exactly what parsing a copy of that part as an input of its own does: the same outcome, the same values, parse events, tokens and errors in the same order, with every position given as a position in the whole input. What stands before and behind the part, and where it is, has no influence. Every position reported lies in the part, and the texts of the tokens together are the text of the part up to where parsing stopped. It holds for all grammars whose tokens do not look at what is before them, which is so for the token rules of the library.", "quantifier": "all inputs, all parts of them, all grammars with such tokens, whether parsing succeeds or fails", "why_tests_cant": "needs every grammar, every surrounding text and every offset; a rule that peeks past the end of the part or remembers an absolute position shows only with particular surroundings", "anchors": ["include/lexy/input/lexeme_input.hpp: lexeme_input::reader", "include/lexy/input/base.hpp: _partial_input, partial_input, _range_reader", "include/lexy/action/base.hpp: do_action", "include/lexy/dsl/context_identifier.hpp: _idv", "include/lexy/dsl/token.hpp: token_base"]}
{"id": "C81", "title": "What parses is what the grammar describes", "statement": "A grammar describes texts: a token the text it matches, followed by as much whitespace as there is; a sequence the texts of its rules one after the other; a choice the text of the first alternative whose condition holds; and so on for branches, if_, opt, while_, loop and break_, lists, terminators, must, peek, lookahead, positions, captures, symbols, flags, items repeated as often as a count says, combinations of rules in any order, recursion up to the depth limit, productions with their own whitespace, and grammars nested in others. Parsing a production succeeds without any error exactly if the grammar describes a text at the begin of the input; it then stops at the end of that text, and produces exactly the values the description assigns to it, in order. No input is described in two ways. If parsing ends at all, it decides whether the grammar describes the input. Error recovery, the tags of errors, what limits recovery, and token kinds have no influence on that: for an input without errors, a grammar with and one without recovery give the same values.", "quantifier": "all inputs and all grammars built of these rules, with arbitrary token rules", "why_tests_cant": "relates the parser to the meaning of a grammar, for every grammar and every input; tests show single texts of single grammars", "anchors": ["include/lexy/dsl/sequence.hpp: _seq", "include/lexy/dsl/branch.hpp: _br", "include/lexy/dsl/choice.hpp: _chc", "include/lexy/dsl/list.hpp: _lst, _lstt", "include/lexy/dsl/terminator.hpp: _term", "include/lexy/dsl/production.hpp: _prd, _recb, _rec", "include/lexy/dsl/whitespace.hpp: automatic_ws_parser, _wsr", "include/lexy/dsl/recover.hpp: _tryt, _tryr", "include/lexy/dsl/error.hpp: _must", "include/lexy/dsl/option.hpp: _opt, _optt", "include/lexy/dsl/lookahead.hpp: _look", "include/lexy/dsl/symbol.hpp: _sym", "include/lexy/dsl/flags.hpp: _flags, _flag", "include/lexy/dsl/repeat.hpp: _rep_impl, _repd, _repl, _repc", "include/lexy/dsl/combination.hpp: _comb", "include/lexy/dsl/subgrammar.hpp: _subg", "include/lexy/action/base.hpp: do_action"]}
{"id": "C82", "title": "Names of productions and of errors", "statement": "Without a name of its own, a production is called by the qualified name of its type without the top-level namespace (production_name), and so is the message of a generic error by that of its tag; an anonymous namespace around it is not part of it. The name is the whole qualified name if there is no namespace, and never empty. error::is(Tag) is true exactly if the error was made for that tag. The strings this is computed with (comparing, removing a prefix or suffix, finding, starts_with, conversion to and from C strings) do what their names say, never read outside of their array, and a string that says it is null-terminated is.", "quantifier": "all qualified type names, as spelled by the three compilers supported; all strings", "why_tests_cant": "there are as many names as types; a test shows a few of them, of one compiler", "anchors": ["include/lexy/_detail/type_name.hpp: _full_type_name, _type_name, type_name", "include/lexy/_detail/string_view.hpp: basic_string_view, make_cstr", "include/lexy/error.hpp: error<Reader, void>::is, error<Reader, Tag>", "include/lexy/grammar.hpp: production_name"]}
{"id": "C83", "title": "Inputs in memory, what their readers deliver, and byte order marks", "statement": "A string_input made from a pointer and a size, two pointers or a view is exactly that part of memory, one without arguments is empty, and zstring_input is the characters before the first null, whatever follows it. Whatever sequence of peek, bump, position, current and reset a user of the reader makes, as long as it does not bump at the end, it is defined, sees the characters in order and then the end marker, reads nothing else, and resetting to a marker continues from there. Different characters are delivered as different integers, and the end marker only at the end. dsl::bom<Encoding, Endianness> matches exactly if the input starts with U+FEFF written in that encoding and byte order, and nothing always if it has none.", "quantifier": "all memory contents, positions and sizes; all sequences of calls; all encodings, both signednesses of char", "why_tests_cant": "every parser is built on this; tests use a few short strings, and not what lies behind their end", "anchors": ["include/lexy/input/string_input.hpp: string_input, zstring_input", "include/lexy/input/range_input.hpp: range_input", "include/lexy/input/base.hpp: _rr, _range_reader", "include/lexy/encoding.hpp: eof, to_int_type, transcode_char", "include/lexy/dsl/bom.hpp: _bom"]}
{"id": "C84", "title": "Lexemes and ranges are the same for every kind of iterator", "statement": "A lexeme made from two iterators, or from an iterator and a size, is exactly that part of the input: its size is the number of its units, it is empty exactly if it has none, indexing gives its units and asserts for any other index, and two lexemes compare equal exactly if their texts are, wherever they are. That, the size of a range, going on by a number of units but not behind an end, and choosing the nearer of two ends do the same for an input of pointers as for one whose iterators can only be incremented; no unit outside of the range is touched.", "quantifier": "all texts, ranges and sizes; iterators with and without subtraction", "why_tests_cant": "tests use pointers and texts of a few units; the loops for other iterators differ for large sizes only", "anchors": ["include/lexy/lexeme.hpp: lexeme, equal_lexemes", "include/lexy/_detail/iterator.hpp: range_size, next, next_clamped, min_range_end, max_range_end"]}
{"id": "C85", "title": "Strings given to macros keep their characters", "statement": "LEXY_LIT(\"...\"), LEXY_KEYWORD, LEXY_SYMBOL and LEXY_ASCII_ONE_OF stand for exactly the characters between the quotes, in order, zeros in the middle and the empty string included, no matter in which of the three ways the compiler can pass a string to a template. A string one of the ways cannot pass (more than 32 characters with the macros) is rejected, never cut. The sequence of indices the library makes by itself is 0, 1, ..., n - 1, with templates nested only as deep as the logarithm of n. The array made of such a string has a zero at its end.", "quantifier": "all strings, all three implementations, all limits of the compiler", "why_tests_cant": "a test suite runs on one compiler, with one of the implementations, and with few short strings", "anchors": ["include/lexy/_detail/nttp_string.hpp: LEXY_NTTP_STRING, string_literal, to_type_string, type_string::c_str", "include/lexy/_detail/integer_sequence.hpp: make_index_sequence, concat_seq"]}
