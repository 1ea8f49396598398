{
 "claims": [
  {
   "property": "C01",
   "status": "proved",
   "theorems": [
    "C01_normalized_is_canonical",
    "C01_words_unique"
   ],
   "note": "For every string."
  },
  {
   "property": "C02",
   "status": "proved",
   "theorems": [
    "C02_key_ignores_gaps_only"
   ],
   "note": "For every string and its (unique) word decomposition."
  },
  {
   "property": "C03",
   "status": "proved",
   "theorems": [
    "C03_location_counts"
   ],
   "note": "Line and column counters are unbounded naturals in the model."
  },
  {
   "property": "C04",
   "status": "proved",
   "theorems": [
    "C04_location_order"
   ],
   "note": "For every three locations."
  },
  {
   "property": "C05",
   "status": "proved",
   "theorems": [
    "C05_chunk_invariance"
   ],
   "note": "Every text, every sequence of push/push_str calls (empty pieces included)."
  },
  {
   "property": "C06",
   "status": "partial",
   "theorems": [
    "C06_error_identity_refuted",
    "C06_error_identity_of_tokenisable",
    "C06_at_most_two_outcomes",
    "C06_lexical_error_identity"
   ],
   "note": "False as stated: C06_error_identity_refuted gives a text with a grammatical error before a lexical one whose reported error depends on the cut. Proved instead: identical outcome for every text without lexical error, identical lexical outcome always, and at most two outcomes per text. The exact condition is C88."
  },
  {
   "property": "C07",
   "status": "partial",
   "theorems": [
    "C07_limit_rejects_only_long_tokens_refuted",
    "C07_limit_harmless_for_small_fragments"
   ],
   "note": "False as stated: the limit counts the pushed fragment too (witness ';;;' with limit 2). Proved instead: with fragments of at most k characters and tokens of at most m-k characters the limit m never matters. The exact condition is C87."
  },
  {
   "property": "C08",
   "status": "proved",
   "theorems": [
    "C08_limit_bounds_buffer",
    "C08_limited_result_is_unlimited_result"
   ],
   "note": "Every history of calls, failed ones included."
  },
  {
   "property": "C10",
   "status": "proved",
   "theorems": [
    "C10_reset_is_fresh"
   ],
   "note": "Every history before and after."
  },
  {
   "property": "C11",
   "status": "proved",
   "theorems": [
    "C11_push_loses_no_rule",
    "C11_flush_loses_no_rule"
   ],
   "note": "Every state reachable by successful calls and reset."
  },
  {
   "property": "C14",
   "status": "proved",
   "theorems": [
    "C14_tokenisation",
    "C14_cut"
   ],
   "note": "Both directions, every text and every cut into pieces."
  },
  {
   "property": "C09",
   "status": "partial",
   "theorems": [
    "C09_lexing_never_panics_refuted",
    "C09_flush_after_error_panics_refuted",
    "C09_flush_after_lexical_error_panics_refuted",
    "C09_only_panic"
   ],
   "note": "False as stated: 'a=(3);' panics with an out-of-range index, and going on after a grammatical error trips a debug assertion, and flush after a lexical error trips an assertion kept in release builds. Proved instead: lexing any fragments with any limit terminates, and the only panic is the index panic, on texts with an integer directly (up to trivia) before a closing bracket; exactly which texts is C85."
  },
  {
   "property": "C12",
   "status": "proved",
   "theorems": [
    "C12_parse_sound"
   ],
   "note": "Every text; the derived tree is the returned tree, locations included."
  },
  {
   "property": "C13",
   "status": "proved",
   "theorems": [
    "C13_parse_complete",
    "C13_unambiguous"
   ],
   "note": "Every derivation; the location of an empty sequence is not fixed by the grammar."
  },
  {
   "property": "C15",
   "status": "proved",
   "theorems": [
    "C15_same_symbols",
    "C15_trivia_irrelevant"
   ],
   "note": "Every insertion or removal of trivia around a symbol; more generally any two texts with the same symbols."
  },
  {
   "property": "C16",
   "status": "proved",
   "theorems": [
    "C16_last_terminator_optional"
   ],
   "note": "Every accepted text."
  },
  {
   "property": "C17",
   "status": "proved",
   "theorems": [
    "C17_rules_well_formed"
   ],
   "note": "Every accepted text, every node."
  },
  {
   "property": "C18",
   "status": "partial",
   "theorems": [
    "C18_display_round_trip_refuted",
    "C18_display_round_trip_iff",
    "C18_display_round_trip_trees",
    "C18_unreadable_display"
   ],
   "note": "False as stated: '(3* )' is displayed as '(3*)', which is not readable. Proved instead: the round trip holds exactly when no group is displayed with a star before its closing parenthesis."
  },
  {
   "property": "C19",
   "status": "proved",
   "theorems": [
    "C19_duplicate_error",
    "C19_only_errors"
   ],
   "note": "Every rule list; a rule with a non-canonical identifier panics instead (see C22)."
  },
  {
   "property": "C20",
   "status": "partial",
   "theorems": [
    "C20_no_undefined_reference_refuted",
    "C20_accepted_iff",
    "C20_undefined_error"
   ],
   "note": "False as stated: references nested in brackets are not checked ('a=(b);' is accepted). Proved instead: acceptance is exactly canonical distinct names with all top-level references defined, and every reported reference is undefined."
  },
  {
   "property": "C21",
   "status": "proved",
   "theorems": [
    "C21_lookup_faithful"
   ],
   "note": "Every accepted rule list and query."
  },
  {
   "property": "C22",
   "status": "proved",
   "theorems": [
    "C22_new_never_panics"
   ],
   "note": "Every lexer output."
  },
  {
   "property": "C24",
   "status": "proved",
   "theorems": [
    "C24_reader_is_cursor"
   ],
   "note": "Release build, every history, source and chunking, also failing sources; the debug build differs only by C25."
  },
  {
   "property": "C25",
   "status": "partial",
   "theorems": [
    "C25_reader_assertions_never_fire_refuted",
    "C25_reader_assertions",
    "C25_reader_no_unmark"
   ],
   "note": "False as stated: mark, read, unmark, read panics in a debug build. Proved instead: that debug assertion is the only possible panic, only in debug builds and only after an unmark. The exact condition is C89 (C89_stops)."
  },
  {
   "property": "C26",
   "status": "partial",
   "theorems": [
    "C26_released_mark_stays_invalid_refuted",
    "C26_released_mark"
   ],
   "note": "False as stated: identifiers are reused, a stale mark can move the reader to another place. Proved instead: a released mark is rejected until mark() hands out the same identifier again. The exact condition is C89 (C89_identifiers)."
  },
  {
   "property": "C27",
   "status": "proved",
   "theorems": [
    "C27_lookahead",
    "C27_lookahead_safe"
   ],
   "note": "Every history, chunking and argument."
  },
  {
   "property": "C23",
   "status": "proved",
   "theorems": [
    "C23_byte_stream_parse",
    "C23_byte_stream_is_fragments"
   ],
   "note": "Every byte sequence and fragmentation, for every converter meeting `incremental` (assumption about encoding_rs, met by the instance C28_assumption_is_met)."
  },
  {
   "property": "C28",
   "status": "proved",
   "theorems": [
    "C28_decoder_fragmentation",
    "C28_stopping_decoder",
    "C28_assumption_is_met",
    "C28_assumption_is_met_by_utf8"
   ],
   "note": "Every byte sequence, fragmentation and output-buffer schedule, for every converter meeting `incremental`."
  },
  {
   "property": "C29",
   "status": "partial",
   "theorems": [
    "C29_reader_complete_refuted",
    "C29_reader_complete_up_to_flush",
    "C29_reader_is_a_source"
   ],
   "note": "False as stated: the decoder is never flushed, an incomplete last character is lost. Proved instead: the reads give exactly the text determined by the bytes, without what the converter adds at the end of the stream."
  },
  {
   "property": "C49",
   "status": "proved",
   "theorems": [
    "C49_token_spells_leaves",
    "C49_every_walk",
    "C49_leaf_or_node"
   ],
   "note": "Every tree."
  },
  {
   "property": "C50",
   "status": "proved",
   "theorems": [
    "C50_read_failure_located",
    "C50_buffered_text_survives",
    "C50_stream_failure"
   ],
   "note": "Every stream prefix and failure point."
  },
  {
   "property": "C30",
   "status": "proved",
   "theorems": [
    "C30_text_only"
   ],
   "note": "For any graph and any two readers reachable through the API (any chunks, any marks)."
  },
  {
   "property": "C31",
   "status": "proved",
   "theorems": [
    "C31_result_means_all_read",
    "C31_left_over_is_error",
    "C31_answers",
    "C31_decided",
    "C31_fuel"
   ],
   "note": "Errors and results related to a big-step semantics of the rules, both ways, for complete texts."
  },
  {
   "property": "C33",
   "status": "proved",
   "theorems": [
    "C33_first_definition",
    "C33_unique",
    "C33_parse_takes_first"
   ],
   "note": "C33_parse_takes_first is the statement about Parser::parse (release build)."
  },
  {
   "property": "C38",
   "status": "proved",
   "theorems": [
    "C38_livelock",
    "C38_livelock_stops_parse",
    "C38_no_endless_loop"
   ],
   "note": "Rounds counted up to the u32 limit of the loop counter."
  },
  {
   "property": "C39",
   "status": "proved",
   "theorems": [
    "C39_exact_count",
    "C39_optional",
    "C39_greedy"
   ],
   "note": "Counts below 4294967295, which the code treats as unbounded; events of a failed optional attempt may be kept, which is C35."
  },
  {
   "property": "C40",
   "status": "proved",
   "theorems": [
    "C40_exception_match",
    "C40_exception_fail"
   ],
   "note": "Both directions; the exception is tried on exactly the text matched, from the same location."
  },
  {
   "property": "C41",
   "status": "proved",
   "theorems": [
    "C41_furthest_failure",
    "C41_all_fail",
    "C41_parse_reports_furthest"
   ],
   "note": "The last one is about Parser::parse."
  },
  {
   "property": "C42",
   "status": "proved",
   "theorems": [
    "C42_parser_exists",
    "C42_no_dollar_from_text"
   ],
   "note": "For rules without a dollar sign at the start of a name, which all rules read from a text satisfy."
  },
  {
   "property": "C44",
   "status": "proved",
   "theorems": [
    "C44_chars_scanner"
   ],
   "note": "On every reader reachable through the API."
  },
  {
   "property": "C45",
   "status": "proved",
   "theorems": [
    "C45_regex_scanner"
   ],
   "note": "The regex engine is an arbitrary function; with a mark outstanding, as during a parse."
  },
  {
   "property": "C46",
   "status": "partial",
   "theorems": [
    "C46_forward_is_reference_refuted",
    "C46_forward",
    "C46_forward_dollar"
   ],
   "note": "False: the failure of the target is ignored (refuted theorem). Proved: where the target matches or stops the parse, so does the forwarding sequence. The exact condition is C91 (C91_forward)."
  },
  {
   "property": "C32",
   "status": "partial",
   "theorems": [
    "C32_accepted_in_language_refuted",
    "C32_accepted_in_language"
   ],
   "note": "False: terms after a group that stands by itself are never tried (refuted on S=('a'|'b'),'c'). Proved for rules where such groups only come last, with scanners that do not forward. C73 says what is left out otherwise."
  },
  {
   "property": "C34",
   "status": "proved",
   "theorems": [
    "C34_events_nested",
    "C34_library_scanners"
   ],
   "note": "For scanners that emit nested events; the scanners of the library do."
  },
  {
   "property": "C35",
   "status": "partial",
   "theorems": [
    "C35_tokens_in_text",
    "C35_tokens_spell_refuted",
    "C35_tokens_spell"
   ],
   "note": "False: tokens of an abandoned option stay in the events (refuted). Every token is in the text at its location; the tokens spell the text when bodies of options and repetitions leave no events on failure. The exact condition is C90 (C90_tokens)."
  },
  {
   "property": "C36",
   "status": "partial",
   "theorems": [
    "C36_filter",
    "C36_no_empty_pair_refuted",
    "C36_empty_pair_source"
   ],
   "note": "The filter drops exactly adjacent pairs in one pass; pairs that become empty by that stay (refuted). Each empty pair left held only empty pairs. The exact condition is C90 (C90_pairs)."
  },
  {
   "property": "C43",
   "status": "partial",
   "theorems": [
    "C43_no_panic_refuted",
    "C43_no_panic",
    "C43_no_panic_text"
   ],
   "note": "False for a=(b); since references inside brackets are not checked. Proved when every reference at any depth is defined; exactly when a parse panics is C86."
  },
  {
   "property": "C37",
   "status": "partial",
   "theorems": [
    "C37_direct_left_recursion",
    "C37_parse_returns_refuted",
    "C37_parse_returns",
    "C37_parse_returns_any_source"
   ],
   "note": "False for left-recursive rules: a rule whose first definition begins with itself never returns (refuted on S=S,'a'|'b'). Proved for every syntax without left recursion: on complete texts for all scanners, on failing sources for scanners that do not forward. C79 gives the exact condition, left-recursive rules included; C77 bounds the depth."
  },
  {
   "property": "C47",
   "status": "proved",
   "theorems": [
    "C47_rules_concatenate",
    "C47_rest_accepted",
    "C47_after"
   ],
   "note": "Rules of the first text exactly; rules of the second moved by [after], up to the locations of empty sequences (which may name the pseudo text <unknown>, see C53)."
  },
  {
   "property": "C48",
   "status": "proved",
   "theorems": [
    "C48_locations",
    "C48_whole_construct"
   ],
   "note": "Text of the construct at its location, and the whole token run derives it."
  },
  {
   "property": "C51",
   "status": "partial",
   "theorems": [
    "C51_failures_not_premature",
    "C51_noticed_at_once_refuted",
    "C51_at_most_one_character_late"
   ],
   "note": "Not premature: proved. 'Noticed by the completing call' is false: a lone '$' is accepted by push (C51_noticed_at_once_refuted); what holds is a delay of at most one character. The exact condition is C88 (C88_succeeds, C88_wrong, C88_broken)."
  },
  {
   "property": "C52",
   "status": "proved",
   "theorems": [
    "C52_lexical_errors_stick",
    "C52_flush_fails",
    "C52_stays_hopeless"
   ],
   "note": "Unlimited lexer. flush may even panic (C09_flush_after_lexical_error_panics_refuted)."
  },
  {
   "property": "C53",
   "status": "partial",
   "theorems": [
    "C53_every_location_in_text_refuted",
    "C53_locations_in_text"
   ],
   "note": "False for an empty sequence in empty brackets, which carries <unknown>:1:1; every other location lies in the text. The exact condition is C92 (C92_unknown)."
  },
  {
   "property": "C54",
   "status": "partial",
   "theorems": [
    "C54_stops_iff_garbled",
    "C54_garbled_location",
    "C54_garbled_location_refuted",
    "C54_assumption_is_met"
   ],
   "note": "Success exactly when nothing is garbled: proved. The location is exact unless the text before contains a genuine U+FFFD, which is taken for the garbled one (C54_garbled_location_refuted)."
  },
  {
   "property": "C55",
   "status": "proved",
   "theorems": [
    "C55_read_from_str",
    "C55_read_from_str_limited",
    "C55_assumption_is_met"
   ],
   "note": "For every converter that decodes UTF-8 (decodes_utf8); the WHATWG decoder is shown to be one."
  },
  {
   "property": "C56",
   "status": "proved",
   "theorems": [
    "C56_errors",
    "C56_choice"
   ],
   "note": "Errors as structured values (location, expected name, quoted text); the names are the displays of constructs as defined in SpecParse.v."
  },
  {
   "property": "C57",
   "status": "proved",
   "theorems": [
    "C57_failing_source",
    "C57_forwarding_refuted"
   ],
   "note": "C57_forwarding_refuted shows that the restriction to scanners that do not forward is needed: the failure of the target of a forward is ignored."
  },
  {
   "property": "C58",
   "status": "proved",
   "theorems": [
    "C58_locations_irrelevant",
    "C58_same_symbols",
    "C58_display",
    "C58_library"
   ],
   "note": "for complete sources; the configuration must not look at locations (C58_place_matters), which holds for the scanners of the library chosen by content"
  },
  {
   "property": "C59",
   "status": "proved",
   "theorems": [
    "C59_order",
    "C59_reachable",
    "C59_more_rules"
   ],
   "note": "order: any configuration; unreached rules: scanners that do not forward (C59_forwarding_matters); panics are not told apart"
  },
  {
   "property": "C60",
   "status": "proved",
   "theorems": [
    "C60_renaming",
    "C60_library"
   ],
   "note": "for complete sources, scanners that do not forward and hand out tokens only"
  },
  {
   "property": "C61",
   "status": "proved",
   "theorems": [
    "C61_location",
    "C61_quotation",
    "C61_messages",
    "C61_errors",
    "C61_lexer",
    "C61_parse_str",
    "C61_new",
    "C61_parse",
    "C61_ascii",
    "C61_place",
    "C61_literal",
    "C61_literal_one",
    "C61_code_point",
    "C61_names_matter",
    "C61_users_matter"
   ],
   "note": "C61_names_matter and C61_users_matter show that the restriction to one source and to the messages of the library is needed"
  },
  {
   "property": "C62",
   "status": "proved",
   "theorems": [
    "C62_errors",
    "C62_inside",
    "C62_first_misfit",
    "C62_one_fault",
    "C62_reported",
    "C62_at_once"
   ],
   "note": "For every text, fragmentation and limit."
  },
  {
   "property": "C63",
   "status": "proved",
   "theorems": [
    "C63_exactly_the_language",
    "C63_checked"
   ],
   "note": "C63_exactly_the_language for all rule sets meeting predictive (SpecLL.v), C63_checked: the computation ll1 implies predictive; C63_condition_needed shows a text of the language refused without the condition"
  },
  {
   "property": "C64",
   "status": "proved",
   "theorems": [
    "C64_user_scanner",
    "C64_scanner_keeps_marks"
   ],
   "note": "user programs as described in Graph.v (sprog): everything MarkableCharReader offers except read_chars, and only their own marks"
  },
  {
   "property": "C65",
   "status": "proved",
   "theorems": [
    "C65_parse_keeps_marks"
   ],
   "note": ""
  },
  {
   "property": "C66",
   "status": "proved",
   "theorems": [
    "C66_derivation"
   ],
   "note": "Exact events when bodies of brackets are clean (tidy rules); otherwise existence of the derivation; abandoned bodies may leave tokens behind (C35_tokens_spell_refuted)."
  },
  {
   "property": "C67",
   "status": "proved",
   "theorems": [
    "C67_the_derivation",
    "C67_checked"
   ],
   "note": "For predictive rules (C63_checked computes this) in which every construct has a word (C67_checked computes this)."
  },
  {
   "property": "C68",
   "status": "proved",
   "theorems": [
    "C68_viable",
    "C68_library"
   ],
   "note": "the exceptions of the rules are not part of the language used to continue the beginning; grammars with constructs without words are excluded (C68_productive_needed); the place need not be the furthest such place (C68_not_furthest)"
  },
  {
   "property": "C69",
   "status": "proved",
   "theorems": [
    "C69_replies",
    "C69_parse",
    "C69_utf8",
    "C69_for_bytes",
    "C69_assumption_is_met"
   ],
   "note": "the converter is an arbitrary incremental one; for UTF-8 it is assumed to hold back no finished character, which the instance of SpecUtf8.v does not"
  },
  {
   "property": "C70",
   "status": "proved",
   "theorems": [
    "C70_file",
    "C70_syntax",
    "C70_not_opened",
    "C70_unknown_label",
    "C70_known_label"
   ],
   "note": "the file system and the table of encodings are arbitrary functions; buffer limits for accepted files are covered by C08 and C23"
  },
  {
   "property": "C71",
   "status": "proved",
   "theorems": [
    "C71_laws",
    "C71_laws_back",
    "C71_texts"
   ],
   "note": "Eleven laws, any chain of them in either direction; what an error says was expected is not compared (the laws change it)."
  },
  {
   "property": "C72",
   "status": "proved",
   "theorems": [
    "C72_loose_laws",
    "C72_loose_laws_back",
    "C72_texts",
    "C72_counts_keep_events_refuted",
    "C72_parentheses_refuted",
    "C72_option_in_sequence_refuted"
   ],
   "note": "Events may differ (C72_counts_keep_events_refuted), and the option and parenthesis laws fail in the midst of a sequence (the other two refutations), because nothing counts that follows a group standing by itself."
  },
  {
   "property": "C73",
   "status": "proved",
   "theorems": [
    "C73_cut",
    "C73_groups_last",
    "C73_language",
    "C73_derivation",
    "C73_viable"
   ],
   "note": "Lifts the condition on groups from C32, C66 and C68 by naming the syntax the parser really follows."
  },
  {
   "property": "C74",
   "status": "proved",
   "theorems": [
    "C74_refactored",
    "C74_refactored_back",
    "C74_texts",
    "C74_group_named_refuted"
   ],
   "note": "In the midst of a sequence a name is not its definitions in parentheses (C74_group_named_refuted), because nothing counts that follows a group standing by itself."
  },
  {
   "property": "C75",
   "status": "proved",
   "theorems": [
    "C75_elsewhere",
    "C75_shifted_places",
    "C75_one_place",
    "C75_library",
    "C75_source_name",
    "C75_any_scanner_refuted"
   ],
   "note": "User scanners must only hand locations on (hands_on); one that looks at its location can tell the difference (C75_any_scanner_refuted)."
  },
  {
   "property": "C76",
   "status": "proved",
   "theorems": [
    "C76_lexer",
    "C76_parse_str",
    "C76_read_from",
    "C76_determined",
    "C76_shown",
    "C76_parsers"
   ],
   "note": "The second theorem of the pair in C76_read_from covers Syntax::read_from; encodings are a parameter.  Examples C76_case, C76_bytes, C76_parsers_case."
  },
  {
   "property": "C77",
   "status": "proved",
   "theorems": [
    "C77_linear",
    "C77_answer",
    "C77_decides",
    "C77_deep"
   ],
   "note": "Fuel counts recursion levels and loop rounds of the model; complete texts (no read error)."
  },
  {
   "property": "C78",
   "status": "proved",
   "theorems": [
    "C78_linear",
    "C78_library",
    "C78_linear_refuted"
   ],
   "note": "The bound for tidy rules, and for the others the counterexample that the statement names: C78_linear_refuted gives a syntax whose answers double with each character."
  },
  {
   "property": "C79",
   "status": "proved",
   "theorems": [
    "C79_returns_iff",
    "C79_never",
    "C79_left_recursion"
   ],
   "note": "Complete texts (no read error); a panic counts as returning (C43 says when one happens)."
  },
  {
   "property": "C80",
   "status": "proved",
   "theorems": [
    "C80_lexer",
    "C80_parse_str",
    "C80_lexer_sharp",
    "C80_reader",
    "C80_reader_sharp",
    "C80_parser",
    "C80_counts",
    "C80_parser_sharp"
   ],
   "note": "Narrow.v and NarrowMachine.v repeat the lexer, the reader and the parser with checked additions of the width of the code (None = overflow); the theorems show agreement with the unbounded model below the bounds, the _sharp theorems that overflow happens just beyond. C80_counts: the counts of lexed rules are u32. Not checked: usize indices into buffers."
  },
  {
   "property": "C81",
   "status": "proved",
   "theorems": [
    "C81_lexer",
    "C81_lexer_careful",
    "C81_parse_str",
    "C81_debug_after_error",
    "C81_release_after_error",
    "C81_release_after_closing_refuted",
    "C81_reader",
    "C81_parser",
    "C81_parser_stopped",
    "C81_parser_same",
    "C81_parser_library"
   ],
   "note": "C81_release_after_closing_refuted is the witness for the exception in (3), which the statement names."
  },
  {
   "property": "C82",
   "status": "proved",
   "theorems": [
    "C82_example_ready",
    "C82_example_exact",
    "C82_example_tree",
    "C82_trees",
    "C82_one_tree"
   ],
   "note": "Both directions, with termination, the spelling of the events and the complete tree of rules and tokens (locations by C82_example_exact); the grammar is the text of the documentation, run through the model of the lexer."
  },
  {
   "property": "C83",
   "status": "proved",
   "theorems": [
    "C83_one_of",
    "C83_zero_or_more",
    "C83_one_or_more",
    "C83_with_min",
    "C83_with_max",
    "C83_with_range",
    "C83_from_str"
   ],
   "note": "On the concrete reader; the regex engine is a parameter; with_range with the bounds the wrong way round never matches."
  },
  {
   "property": "C84",
   "status": "proved",
   "theorems": [
    "C84_exactly_the_language",
    "C84_covers_ll1",
    "C84_checked"
   ],
   "note": "Generalises C63 to look-ahead of any length and to exceptions; C84_condition_needed gives a refused word for each kind of choice."
  },
  {
   "property": "C85",
   "status": "proved",
   "theorems": [
    "C85_exactly",
    "C85_fragments",
    "C85_unfinished",
    "C85_any_limit"
   ],
   "note": "The exact version of C09. With fragments and a lexical error that cannot be mended, which of the two is reported depends on the cut (C06)."
  },
  {
   "property": "C86",
   "status": "proved",
   "theorems": [
    "C86_panics",
    "C86_errors",
    "C86_stops",
    "C86_livelock",
    "C86_regex",
    "C86_kinds"
   ],
   "note": "Complete texts (no read error). The exact version of C43."
  },
  {
   "property": "C87",
   "status": "proved",
   "theorems": [
    "C87_rejected",
    "C87_otherwise",
    "C87_kept",
    "C87_characters",
    "C87_whole"
   ],
   "note": "The exact version of C07."
  },
  {
   "property": "C88",
   "status": "proved",
   "theorems": [
    "C88_wrong",
    "C88_broken",
    "C88_other",
    "C88_succeeds",
    "C88_at_once",
    "C88_characters",
    "C88_independent",
    "C88_unique"
   ],
   "note": "The exact version of C06."
  },
  {
   "property": "C89",
   "status": "proved",
   "theorems": [
    "C89_gauge",
    "C89_determined",
    "C89_held",
    "C89_stops",
    "C89_identifiers"
   ],
   "note": "The exact versions of C25 and C26."
  },
  {
   "property": "C90",
   "status": "proved",
   "theorems": [
    "C90_trace",
    "C90_complete",
    "C90_kept",
    "C90_derivation",
    "C90_tokens",
    "C90_pairs"
   ],
   "note": "The exact versions of C35 and C36."
  },
  {
   "property": "C91",
   "status": "proved",
   "theorems": [
    "C91_forward",
    "C91_target",
    "C91_accepts"
   ],
   "note": "The exact version of C46."
  },
  {
   "property": "C92",
   "status": "proved",
   "theorems": [
    "C92_located",
    "C92_places",
    "C92_unknown"
   ],
   "note": "The exact version of C53; with it C12 and C13 determine parse_str completely."
  },
  {
   "property": "C93",
   "status": "proved",
   "theorems": [
    "C93_forward",
    "C93_left",
    "C93_gives_up",
    "C93_choice",
    "C93_again",
    "C93_unmoved_refuted"
   ],
   "note": "C93_unmoved_refuted: the simpler claim that a failed parse leaves the reader where it was is false. Where a parse that is stopped in the middle (C86: endless loop, scanner error, unknown target of forwarding) leaves the reader is only bounded by C93_forward."
  },
  {
   "property": "C94",
   "status": "proved",
   "theorems": [
    "C94_exact",
    "C94_determined",
    "C94_reader",
    "C94_room",
    "C94_exponential",
    "C94_polynomial_refuted"
   ],
   "note": "Counts turns of the loop of parse_to_subroutine_end including its recursive calls, not the cost of one instruction. C94_polynomial_refuted: the simpler claim of polynomial time is false."
  },
  {
   "property": "C95",
   "status": "proved",
   "theorems": [
    "C95_linear",
    "C95_ends",
    "C95_checked",
    "C95_bound_is_linear",
    "C95_productive_needed"
   ],
   "note": "Instructions are counted as in C94. The numbers a and b are not the least possible."
  },
  {
   "property": "C96",
   "status": "proved",
   "theorems": [
    "C96_decided",
    "C96_rule",
    "C96_returns",
    "C96_library",
    "C96_converse_refuted"
   ],
   "note": "The library performs no such check; the computation is part of the development (DecideLeft.v). C96_converse_refuted: a left-recursive rule need not make a parse endless (C79 says exactly when it does)."
  },
  {
   "property": "C97",
   "status": "proved",
   "theorems": [
    "C97_at_most_exponential",
    "C97_form",
    "C97_now_or_never",
    "C97_enough"
   ],
   "note": "Instructions as counted in MachineSteps.v (C94); the bound is step_cap of SpecCap.v. For readers whose text ends normally (C97_enough: any). Memory and the limit of the stack are not modelled."
  },
  {
   "property": "C98",
   "status": "proved",
   "theorems": [
    "C98_holds_all",
    "C98_holds_nothing"
   ],
   "note": "The rules are told apart by pins and flat of SpecHold.v; rules that are neither (such as those that begin with a terminal and go on with a choice) are not claimed about. The second theorem is for readers made by any history of reader operations."
  },
  {
   "property": "C99",
   "status": "proved",
   "theorems": [
    "C99_at_most",
    "C99_limit",
    "C99_tokens_moved",
    "C99_comment_read_again",
    "C99_brackets_read_again"
   ],
   "note": "What is counted is defined in LexCost.v beside the code it follows: characters looked at, walked over and moved by the tokenizer, tokens looked at and moved by the lexer, and calls of the recursive descent. Copying of token texts and debug assertions are not counted."
  },
  {
   "property": "C100",
   "status": "proved",
   "theorems": [
    "C100_exact",
    "C100_at_most",
    "C100_limit_does_not_bound"
   ],
   "note": "What is counted is defined in LexDepth.v beside the code it follows: calls of build_syntax_rule, of the functions of the recursive descent and of read_enclosed_definition_list that are open at the same time. Calls that call none of these are not counted."
  },
  {
   "property": "C101",
   "status": "proved",
   "theorems": [
    "C101_one_derivation",
    "C101_events",
    "C101_checked",
    "C101_tidy_checked"
   ],
   "note": "Generalises C67 from LL(1) rules without exceptions to the rules of C84. That alternatives have no common words other than the empty one is needed: the rule S='a'|'a'; has two derivations."
  },
  {
   "property": "C102",
   "status": "proved",
   "theorems": [
    "C102_same_result",
    "C102_defaults",
    "C102_library",
    "C102_library_serves",
    "C102_from_start"
   ],
   "note": "Texts that end, and texts whose end is a failure told as the library tells it (MWrapped, at the end). Three sloppy readers show that the laws are needed."
  },
  {
   "property": "C103",
   "status": "proved",
   "theorems": [
    "C103_parse",
    "C103_whole",
    "C103_calls",
    "C103_cursor",
    "C103_nested"
   ],
   "note": "Shows that the chunked sources of Io.v lose no generality. Readers that give nothing before the end, or go on after a failure, are outside."
  },
  {
   "property": "C104",
   "status": "proved",
   "theorems": [
    "C104_exchange",
    "C104_symbols",
    "C104_regex",
    "C104_regex_limit",
    "C104_own",
    "C104_by_trying"
   ],
   "note": "Answers of scanners as specified in SpecParse.v (C44, C45 and C64 show that the code gives them). The regex engine is a parameter: any that finds the longest run of the class at the head of a text."
  },
  {
   "property": "C105",
   "status": "proved",
   "theorems": [
    "C105_nested",
    "C105_tree",
    "C105_text"
   ],
   "note": "The program that folds the events is a specification (SpecFold.v), the library has none; it uses AST::with_token and AST::with_children. C105_text needs tidy rules as C35_tokens_spell does; C105_lost shows a tree that does not spell the text without."
  },
  {
   "property": "C106",
   "status": "proved",
   "theorems": [
    "C106_derivations",
    "C106_parses",
    "C106_parses_plain",
    "C106_checked",
    "C106_scanners"
   ],
   "note": "The events agree for tidy rules (C101). C106_parses takes old rules of the same kind, exceptions included; C106_parses_plain takes any old rules without exceptions whose groups come last. C106_condition_needed shows extensions that lose texts."
  },
  {
   "property": "C107",
   "status": "proved",
   "theorems": [
    "C107_library",
    "C107_part",
    "C107_list",
    "C107_list_back"
   ],
   "note": "For tidy rules (C101). The rule of the part has to be one whose choices are never undone also where its text ends (determinate for that rule). C107_condition_needed shows a part that is parsed differently by itself where a choice is undone."
  },
  {
   "property": "C108",
   "status": "proved",
   "theorems": [
    "C108_library",
    "C108_edit",
    "C108_checked"
   ],
   "note": "For tidy rules (C101), and for parts inside of the whole (the whole text is exchanged trivially). C108_condition_needed shows an exchange that is refused because of an exception around the part."
  }
 ]
}