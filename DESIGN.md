# Formal model of foonathan/lexy in Rocq

`/verif/rocq/theories` contains an executable Gallina model of parts of lexy
(`/repo`, read as text) and machine-checked theorems about it.
`properties.jsonl` lists the user-level properties (C01, C02, ...),
`MANIFEST.json` maps each to theorems, `seeded/LOG.jsonl` records the
wrong-program experiments.

## Conventions

* One area = `XModel.v` (definitions that mirror the code, each citing file and
  lines), `XSpec.v` (independent specification, where it is more than a
  one-liner), `XProofs.v` (lemmas), `XProps.v` (property theorems only, each
  closed by `exact`, followed by `Print Assumptions`, with non-vacuity
  `Example`s).
* Code units, code points and bytes are `N`; lengths and positions are `nat`;
  machine words wrap explicitly (`mod 2^64`).
* Undefined behaviour and violated `LEXY_PRECONDITION`s are a distinct outcome.
* Fuel exhaustion is a distinct outcome, excluded by the theorem or proved
  impossible.
* A property that is false of the faithful model gets a `..._refuted` theorem
  with a concrete witness, and (where useful) a `..._partial` theorem on the
  part where it does hold.

## Trusted base

* Coq 8.16.1 kernel (and `vm_compute`).
* What `Print Assumptions` prints below each theorem: "Closed under the global
  context" for every property theorem.  No axiom is used.  (`coqchk -o` also
  lists the seven `Coq.ssr.ssrunder.Under_rel.*` constants of the standard
  library, because `lia`'s Zify instances load ssreflect; no theorem depends on
  them.)
* The reading of the C++ source: the model is hand-written from the text.  The
  code is not executed.  See "Modelled / not modelled" at the end of this file.

## Plan per property

| id | modelled | how proved |
|----|----------|-----------|
| C01 | encode/parse_code_point UTF-8 | arithmetic on shifts/masks, exhaustive over lead/trail bytes by lemmas |
| C02 | parse_code_point UTF-8 | case analysis on lead byte, inverse of C01 |
| C03 | UTF-16 encode/parse | expected to be refuted (`\|= 0x10000`), partial for odd planes |
| C04 | UTF-32/ASCII | case analysis |
| C05 | parse/recover for all encodings | refuted for UTF-8 lead bytes F8..FE; partial otherwise |
| C06 | swar loops in ascii classes, digits, until | simulation against unit loop by strong induction |
| C07 | swar.hpp word functions | lane decomposition of words, borrow analysis |
| C08 | char_class_match_swar of ascii.hpp | lane-by-lane induction with carries |
| C09 | buffer allocation, reader addresses | arithmetic on round_size_for_swar, trace of addresses |
| C10 | buffer constructors/copy/move | small heap-free value model |
| C11 | _make_buffer for 1/2/4-byte units | big/little-endian digit specification |
| C12 | bom specialisations | refuted for UTF-32 BE; partial for the others |
| C13 | buffer_builder | refinement to a list; refuted for multi-byte units |
| C14 | read_file with an OS oracle | state machine over all outcome sequences |
| C15 | shell with a prompt oracle | refuted (EOF after newline, long lines), partial |
| C16 | argv_iterator | refinement to a flat list |
| C17 | get_input_location loop | induction on the input, fold specification |
| C18 | anchor | decomposition lemma of C17's fold |
| C19 | line annotation | list decomposition |
| C20 | integer parser and traits | Horner invariant; refuted for separators |
| C21 | digit rules | regular-expression style specification |
| C22 | class combinators with ascii part and cp part | structural induction on class expressions |
| C23 | match_literal (plain and swar) | induction; refuted for char literal on UTF-32 buffer |
| C24 | trie construction + matcher | refinement to a set of strings, longest prefix |
| C25 | case-folding readers | ascii proved; unicode+set refuted |
| C26 | identifier/keyword tokens | maximal-munch specification |
| C27 | until | first-match specification |
| C28 | delimited loop | concatenation invariant |
| C29 | newline/eof/eol | case analysis |
| C30-C44, C65 | deep embedding of rules, CPS interpreter emitting events | induction on fuel with predicates on continuations |
| C45-C47 | expression.hpp Pratt loop over operator tables | declarative precedence grammar; soundness, completeness, uniqueness |
| C48-C54 | parse_tree builder on an explicit node heap | refinement to rose trees; block allocator invariant; expressions: nesting of the events by induction over the Pratt loop, then simulation |
| C55 | symbol_table over the trie | map specification |
| C56 | bint/bits | positional value |
| C57-C59 | callbacks on lists of values | induction |
| C60 | visualize of code points and lexemes, all options | relation between pieces and their texts; parsing the text back for injectivity |
| C61 | the same functions over an arbitrary output iterator | every writer equals writing its text character by character; refuted with colors |
| C62 | report_error | layout of the lines, from the annotation of C19 |
| C63 | scanner state machine | invariant over operation sequences |
| C64 | token_kind over the width and signedness of the enumeration | modular arithmetic |
| C66 | class tables of ascii.hpp and digit.hpp | finite sweep over ASCII, lifted to all units |
| C67 | node kinds in the tree model | case analysis on labelled trees |
| C68 | comparison of input_location | order of the states of C17's loop |
| C69 | buffer_builder's allocations as a log | invariant: exactly the current block is live |
| C70 | visualize of parse trees, on the blocks of memory of the tree model | steps over the traversal related to a recursive drawing; drawings parsed back |
| C71 | trace: writer and handler, on sequences of events | events as a forest, rows by recursion over it; anchors kept in an invariant over the positions of live productions |
| C72 | Unicode tables transcribed; lookups with out-of-bounds as an outcome; classes | each fact evaluated for every code point block by block, lifted to all code points; classes through C22 |
| C73 | `simple_case_fold` on the tables | as C72; discharges the hypotheses of C25, C55, C59 on the folding |
| C74 | the reader over the children of a node, `tnode`, `pnode`, with and without rules, sequences, choices, options, loops, `eof`, productions, whitespace nodes, on the memory of a finished tree | `run` is sound and complete for an inductive matching relation on lists of nodes (induction on fuel, on the relation); the reader is always at a suffix of the children of a node |
| C75 | `dsl::not_followed_by`/`followed_by` on range inputs with no, ASCII or Unicode case folding; their entry in tries | three-way case analysis from the literal theorem (C23, C25) and the class theorem (C22); the folding reader at the end of the literal delivers the folded next code point |
| C76 | `parse_tree_desc`, `toString`, the conversion of a parse tree and `operator==` on the memory of a finished tree | the text of a description is a layout of rows (as in C70), which is injective; the spelling of a token is a prefix-free code on the characters allowed; the conversion makes the calls of the tree (induction on the tree in memory) |
| C77 | `lazy_init` of all four kinds with explicit object lifetimes (storage with or without a live object; lifetime errors are a separate outcome) | invariant: the flag says whether the storage has a live object; simulation of a notebook of optionals, objects made = destroyed + held |
| C78 | one syntax for all token rules (Gt*) with the models of C20-C29, C56 and C75 as their meaning, and the embedding into the tokens of the rule engine | readers that stay between two positions: preserved by every case folding reader, by literals and by the trie matcher; fuel bounds for every loop; induction on the token rule |
| C79 | the rule engine (Rule*): eventual outcomes, for rising fuel, of every rule (Halt*); conditions on grammars in HaltSpec | combinators for parsers with continuations that eventually have an outcome; induction on the remaining recursion depth, the rank of productions, the rule, and for loops on the rest of the input; consuming rules by induction on fuel |
| C80 | lexeme_input and partial_input: the rule engine with another begin and end (ShiftModel) | a relation between engines on a text and on the same text with a prefix, equal up to moving all positions, for every fuel; tokens of the library by their definition on the rest of the input |
| C81 | a description of texts and values by a grammar, without events, continuations, fuel and recovery (LangSpec), beside the rule engine (Rule*) | soundness by induction on the fuel: every run either has an error in its trace or follows the description; completeness by induction on the description; recovery by an induction over descriptions of two grammars |
| C82 | `string_view.hpp`, `type_name.hpp` on arrays of units with preconditions and reads out of bounds as an outcome; `error::is` (NameModel) | every operation related to lists; qualified names as lists of identifiers, which are read back in one way; expected to be refuted for templates and for tags of different namespaces |
| C83 | `string_input`, `zstring_input`, `range_input` of pointers and `_rr` on one array, with reads out of bounds and violated preconditions as outcomes; `eof()`, `to_int_type()` of the seven encodings for signed and unsigned `char`; `dsl/bom.hpp` with `transcode_char` (InpModel) | a run of arbitrary calls on the reader refines a relation on the text only; `mark` is U+FEFF through `encode_code_point` and a byte order; expected to be refuted for the units that look like the end, and for marks in text inputs |
| C84 | `lexeme.hpp` and the algorithms of `_detail/iterator.hpp`, each for iterators with and without subtraction, on positions of one text; incrementing or reading the end and violated preconditions are outcomes (LexModel) | against the part of the text between two positions; inductions over the loops; expected to be refuted where a 32-bit counter is compared with a size |
| C85 | the three implementations of LEXY_NTTP_STRING and the index sequences made by halving; what the compiler rejects or does not finish is an outcome (NttpModel) | equality with the string; the macros by a lemma about cutting a string in two, the constructor by an invariant of its loop, the indices by induction on the nesting of templates |

## Findings

Where the faithful model does not have the property, a theorem `..._refuted`
shows it with a concrete witness.  Each was found by reading /repo; the code has
not been run.

| # | code | finding | theorem |
|---|------|---------|---------|
| 1 | `_detail/code_point.hpp` UTF-16 decode | `\|= 0x10000` where `+=` is needed: code points of every other plane are decoded wrongly | C03_utf16_roundtrip_refuted |
| 2 | `input/buffer.hpp` UTF-32 BE BOM | tests `memory[3]` nonzero instead of `== 0xFF` | C12_utf32_bom_refuted |
| 3 | `_detail/code_point.hpp` UTF-8 | lead bytes F8..FE are classified as end of input | C05_eof_refuted |
| 4 | `dsl/integer.hpp` bounded overflow check | trailing non-digits are taken for more digits: spurious overflow | C20_trailing_refuted, C20_recovery_refuted |
| 5 | `_detail/swar.hpp`/`match_literal` | a `char` literal on a UTF-32 buffer is compared with the wrong lane width | C06_literal_utf32_refuted, C23_literal_utf32_refuted |
| 6 | `dsl/identifier.hpp` `reserve_suffix` | a suffix that overlaps itself is missed ("aa" in "aaa") | C26_suffix_refuted |
| 7 | `dsl/case_folding.hpp` + literal sets | the reader is re-wrapped at each trie node and loses buffered units | C25_unicode_set_refuted, C26_unicode_refuted |
| 8 | `dsl/whitespace.hpp` `no_whitespace` | flag not restored on failure; a nested one re-enables whitespace early | C41_failure_refuted, C41_nested_refuted |
| 9 | `input/buffer.hpp` | the reader of a default-constructed or moved-from buffer with sentinel dereferences null | C09_empty_buffer_refuted |
| 10 | `dsl/literal.hpp` literal sets | keyword and literal with the same text share the trailing class | C24_shared_keyword_refuted |
| 11 | `parse_tree.hpp` `cancel_production` | size not reduced by finished children | C50_size_refuted |
| 12 | `parse_tree.hpp`, transparent production cancelled | children stay and an error token covers them again | C49_refuted |
| 13 | `parse_tree.hpp` `pt_buffer::reset` | blocks of a reused tree leak | C53_reuse_refuted |
| 14 | `parse_tree.hpp` `pt_buffer::unwind` | marker at the end of a full block: live nodes overwritten | C53_cancel_refuted |
| 15 | `parse_tree.hpp` `start_container` | pointer allocated without reserve: writes past the block | C53_container_refuted |
| 16 | `parse_tree.hpp` `clear` | size and depth not reset | C50_cleared_refuted |
| 17 | `parse_tree.hpp` `siblings` | reads null on the root | C51_root_siblings_refuted |
| 18 | `parse_tree.hpp` position of an empty root | no token to ask | C52_empty_refuted |
| 19 | `dsl/expression.hpp` | nesting level never decremented: limit counts operators, not nesting | C47_count_refuted, C47_flat_chain_refuted |
| 20 | `dsl/production.hpp` `recurse` | depth not decremented on failure; leaks through `try_` | C40_refuted |
| 21 | `dsl/ascii.hpp` word filters of `graph`/`print` | false positives for 16/32-bit units; identifier scan leaves the buffer | C06_graph_utf32_refuted, C08_graph_print_refuted |
| 22 | `dsl/delimited.hpp` word loop | a case-folded closing delimiter in the other case is skipped | C28_case_folding_refuted |
| 23 | `dsl/digit.hpp` `_match_digits_sep` | stops before a separator behind a full word of digits | C06_digit_separator_refuted, C21_separator_buffer_refuted |
| 24 | `dsl/literal.hpp` | a literal containing the in-band eof unit matches at the end of the input | C23_eof_unit_refuted |
| 25 | `dsl/expression.hpp` | a looser postfix operator is accepted as left operand of a tighter one; nested groups conflict | C45_postfix_refuted, C46_nested_groups_refuted |
| 26 | `dsl/repeat.hpp` capture | the lexeme of `repeat(...).capture` includes trailing whitespace | C65_repeat_capture_refuted |
| 27 | `action/parse_as_tree.hpp` + `subgrammar` | precondition violated | C34_subgrammar_refuted, C48_subgrammar_refuted |
| 28 | `dsl/recover.hpp` | `find`/`recover` outside `try_` fail without an error (documented) | C33_refuted, C34_silent_refuted |
| 29 | `parse_tree.hpp` node kind comparison | token kind compared with production kind dereferences null | C67_refuted |
| 30 | `input_location.hpp` `get_input_line` with byte counting | last byte of each line treated as newline | C19_bytes_refuted |
| 31 | `_detail/buffer_builder.hpp` `grow` | copies `_read_size` bytes instead of `_read_size * sizeof(T)` | C13_wide_refuted |
| 32 | `input/file.hpp` with UTF-16/32 | file size not a multiple of the unit violates a precondition of `make_buffer_from_raw` | C14_unit_size_refuted |
| 33 | `lexy_ext/shell.hpp` end of input after a complete line | `write_data()[-1]` is the old newline: "appended" is reported and a NUL (fgets) or unwritten memory is read | C15_end_refuted |
| 34 | `lexy_ext/shell.hpp` end of input with empty buffer | reads in front of the buffer | C15_no_input_refuted |
| 35 | `lexy_ext/shell.hpp` last line without newline | first peek says eof, second one gives the character | C15_last_line_refuted |
| 36 | `lexy_ext/shell.hpp` `default_prompt` | `fgets` reads `size - 1`: long lines (and NULs) fail an assertion | C15_fgets_refuted |
| 37 | `dsl/symbol.hpp` `symbol(identifier)` | a name that is not an identifier is accepted although the identifier at that place is different or there is none | C55_identifier_refuted |
| 38 | `dsl/symbol.hpp` `symbol(identifier)` with case folding | text outside the identifier's class is accepted | C55_identifier_folding_refuted |
| 39 | `token.hpp` user kind precondition | the bound is converted to the enumeration type: -9 for signed 8/16 bit, 247 for unsigned 8 bit, so documented values are rejected | C64_small_enum_refuted |
| 40 | `callback/string.hpp` with `unicode::simple_case_folding`, UTF-8/16 | a string with a stray trailing unit is cut off there (`"a\x80b"` becomes `"a"`): the folding reader yields EOF | C59_ill_formed_refuted |
| 41 | `callback/string.hpp` with `ascii::case_folding`, 8-bit | everything after a byte 0xFF (the EOF value) stays unfolded | C59_ill_formed_refuted |
| 42 | `visualize.hpp` `write_color` | drops the iterator returned for the second color code: a pointer iterator overwrites it | C61_refuted |
| 43 | `visualize.hpp` UTF-8 lexemes | a byte F8..FF ends the visualization (finding 3) | C60_unicode_refuted |
| 44 | `visualize.hpp` UTF-16 lexemes | different well-formed texts look the same (finding 1) | C60_injective_refuted |
| 45 | `visualize.hpp` lexemes with node encoding | the options are dropped | C60_node_refuted |
| 46 | `lexy_ext/report_error.hpp` `write_annotation` | the margin below a line is five characters, but `%4zd ` writes more for line numbers of five digits: from line 10000 on the underline is below the wrong characters | C62_refuted |
| 47 | `action/trace.hpp` `_th` | locations are searched from the line of the last production started and not cancelled; an event before that line (a duplicate item of a combination that spans lines) makes an assertion fail | C71_refuted |
| 48 | `visualize.hpp` `write_format` | the buffer of 16 characters is too small for line and column of large inputs (16 characters or more with `:`): 16 are cut and end with NUL, as the assertion is `count <= N`; longer ones make it fail | C71_large_refuted |
| 49 | `action/trace.hpp` `trace_action` | `TokenKind` is not passed to the handler: user-defined token kinds are traced as unknown tokens, empty ones are left out | comment in TrModel.v |
| 50 | `input/parse_tree_input.hpp` `_ptr::position` | A node without children as the input (or as the next node) violates the precondition of `position()` / `covering_lexeme()`: the tree of a parse that matched nothing cannot be parsed | `C74_empty_production_refuted` |
| 51 | `input/parse_tree_input.hpp` `reader` | The documentation says that the default constructor creates an empty input; its reader asks a null node for its first child | `C74_empty_input_refuted` |
| 52 | `dsl/parse_tree_node.hpp` `_nr` | The documentation says that errors of the rule for a lexeme or for children are recovered from by doing nothing; the rule fails when the child rule fails | `C74_recovery_refuted` |
| 53 | `dsl/follow.hpp` `followed_by` | The documentation says it ensures that a character of the class follows; as `not_followed_by(lit, -cc)` it also matches at the end of the input and before ill-formed text, where `-cc` does not match either | `C75_followed_refuted` |
| 54 | `lexy_ext/parse_tree_doctest.hpp` `token` | Backslashes are not escaped: a token with a line break and one with the characters `\{a}` compare equal | `C76_backslash_refuted` |
| 55 | `lexy_ext/parse_tree_doctest.hpp` `token` | `unsigned(c) % 0xFF` instead of `& 0xFF`: the byte 0xFF is written like the byte 0 | `C76_ff_refuted` |
| 56 | `lexy_ext/parse_tree_doctest.hpp` `token` | `std::isprint` is called with a negative value for non-ASCII bytes of a `char` input (undefined behaviour) | `C76_signed_refuted` |
| 57 | `dsl/literal.hpp` | The literal `"\xFF"` compiles for ASCII and UTF-8 (its character type is that of the encoding), matches the end-of-input marker and moves the reader past the end of the input | `C78_ff_refuted` |
| 58 | `dsl/loop.hpp`, `dsl/production.hpp` | Nothing rejects a loop whose rule succeeds without consuming (`loop(else_)`), nor a production that starts with itself: parsing them never ends | `C79_needed` |
| 59 | `_detail/type_name.hpp` | The top-level namespace is documented to be removed from names; types with template arguments keep it | `C82_template_refuted` |
| 60 | `error.hpp` `error<Reader, void>::is` | Tags are compared by their names without namespace: an error for `a::missing` also is `b::missing` | `C82_is_refuted` |
| 61 | `_detail/string_view.hpp` `substr`, `starts_with` | `starts_with` of an empty string violates the precondition of `substr` (`pos < _size`), even for an empty prefix | `C82_empty_refuted` |
| 62 | `dsl/bom.hpp`, `transcode_char` | `dsl::bom` is a literal of `unsigned char`s that are not ASCII, which `transcode_char` asserts for every other character type: the mark of UTF-8 cannot be looked for in UTF-8 (`char8_t`) or `char` input while assertions are enabled | `C83_bom_text_refuted`, `C83_bom_chars` |
| 63 | `_detail/iterator.hpp` `next`, `next_clamped` | for iterators without subtraction the loop counts with `auto i = 0u`, 32 bits, up to a `std::size_t`: `lexeme(pos, n)` with n of 2^32 or more runs over the end of the input, and `next_clamped` goes to the end instead of n units | `C84_made_refuted`, `C84_clamped_refuted` |

Noted in passing, without a theorem: the big-endian `peek_swar` copies to
`dst + i` instead of `dst + i * sizeof(char_type)`; `code_unit_id` with `char`
reports 0x80-0xFF as invalid; `operator.hpp`'s `op.pos` and
`rule_scanner::recursion_depth` do not compile when instantiated;
`get_input_location` at a position outside the input asserts (and without
assertions does not end); an annotation of an empty range in front of a multi-unit
code point is flagged as rounded (Example C19_empty_range_rounded); a `limit` in
the class of `delimited` is ignored by the word loop (Example
C28_limit_in_class); an ellipsis is written if the lexeme has exactly the maximal width (Example
C60_exact_width); `report_error` passes an `unsigned` to `%zd`, and its loops over an `unsigned`
do not end for display widths of 2^32 and more; the
generator of the Unicode tables writes bytes from 0xA1 as UTF-8 (two bytes), which would shift the
tables if there were more than 160 different property rows (there are 152).

## Modelled / not modelled

Modelled (every definition cites its lines):

* `_detail/code_point.hpp` encode/parse/recover; `encoding.hpp` eof and unit ranges
  (Codec*).
* `_detail/swar.hpp`, word matching of `dsl/ascii.hpp`, `digit.hpp`, `until`,
  `literal` (Swar*, little-endian, 8-byte words).
* `input/buffer.hpp`, `input/base.hpp` readers, BOM, `_make_buffer` (Buffer*).
* `dsl/literal.hpp` with its trie, `case_folding.hpp` (Lit*); the Unicode
  folding table is a parameter, for which Uni* has the actual one.
* `dsl/char_class.hpp`, `ascii.hpp`, `code_point.hpp` classes (Class*); the Unicode
  property database is a parameter, for which Uni* has the actual one.
* `_detail/unicode_database.hpp`, `code_point.hpp`, `dsl/unicode.hpp` (Uni*).  UniTables.v lists
  the tables number by number; `tools/unicode_tables.py` compares it with the header.
* `dsl/digit.hpp`, `integer.hpp`, `callback/integer.hpp` traits used there (Int*).
* Rules as a deep embedding, their parsers in continuation style with all events:
  sequence, branch, choice, else, while/loop/if, list, sep, opt, times, repeat, try,
  recover, find, peek, context variables, combination, partial combination, flags,
  recursion, productions, whitespace, member, return, scan-free parts of
  `dsl/*.hpp`, `action/base.hpp` (Rule*, ActionModel).
* `dsl/expression.hpp`, `operator.hpp` (Expr*); the calls of `action/parse_as_tree.hpp` for their events
  (PtExpr*).
* `dsl/follow.hpp` on range inputs (Fol*); `lexy_ext/parse_tree_doctest.hpp` for 8-bit characters (Dt*); `_detail/lazy_init.hpp` (Lazy*).
* `input/lexeme_input.hpp`, `partial_input` of `input/base.hpp` (Shift*).
* `_detail/string_view.hpp`, `_detail/type_name.hpp`, `error::is` (Name*); how a compiler spells a type is an input of the model;
  `type_id` (addresses) is not modelled.
* `input/string_input.hpp`, `input/range_input.hpp` with pointers, `input/base.hpp` (`_rr`), `encoding.hpp`, `dsl/bom.hpp` (Inp*);
  iterators other than pointers are not modelled here.
* `lexeme.hpp`, the algorithms of `_detail/iterator.hpp` (Lex*); the facade classes of `_detail/iterator.hpp` are not modelled.
* `_detail/nttp_string.hpp`, `_detail/integer_sequence.hpp` (Nttp*).
* `dsl/token.hpp` and `dsl/any.hpp`: all token rules as tokens of the rule engine (Gt*), range inputs.
* `input/parse_tree_input.hpp`, `dsl/parse_tree_node.hpp`: the reader, node rules, and the rules above them as far as the
  description of `nrule` in NdModel.v goes (Nd*).
* `parse_tree.hpp`, `action/parse_as_tree.hpp`, `parse_tree_algorithm.hpp` and
  `parse_tree::builder` on an explicit heap (Pt*).
* `dsl/identifier.hpp`, `until.hpp`, `delimited.hpp`, `newline.hpp`, `eof.hpp`
  (Text*).
* `input_location.hpp` (Loc*).
* `_detail/buffer_builder.hpp`, `src/input/file.cpp`, `input/file.hpp`,
  `lexy_ext/shell.hpp` against an operating system given by its answers (Io*); messages
  written by the prompt are not modelled.
* `input/argv_input.hpp` and the algorithms of `_detail/iterator.hpp` without random
  access (Argv*).
* `dsl/symbol.hpp` (Sym*); `dsl/byte.hpp`, `dsl/bits.hpp` (Byte*); `token.hpp` and the
  predefined kinds of `grammar.hpp` (Tok*).
* `callback/container.hpp`, `fold.hpp`, `aggregate.hpp`, `adapter.hpp`, `bind.hpp`,
  `composition.hpp` (Cb*); `callback/string.hpp` (Str*).  Overload resolution is the choice
  of the constructor in the model; moves are copies.
* `dsl/scan.hpp`, `action/scan.hpp` over the rule engine (Scan*); what a program does between
  the operations is arbitrary.
* `visualize.hpp` (Vis*, parse trees in Tv*); `lexy_ext/report_error.hpp` (Rep*);
  `action/trace.hpp` (Tr*).  Output
  iterators are a type with an arbitrary function for writing a character.

Not modelled: template instantiation and overload resolution (each parser is a
value); memory-model, exception safety and allocation failure except where a theorem
says so; compile-time diagnostics; the C++ standard library;
whether the Unicode tables are those of Unicode 15.0; names of categories in messages; `lexy_ext/compiler_explorer.hpp`; build tools;
`dsl/effect.hpp`, `dsl/punctuator.hpp`, `callback/forward.hpp`, `constant.hpp`, `noop.hpp`, `object.hpp`, `bit_cast.hpp`,
`_detail/memory_resource.hpp`, `any_ref.hpp`, `tuple.hpp`, `invoke.hpp` and other helpers that only pass values on.
