{
 "claims": [
  {
   "property": "C01",
   "status": "proved",
   "theorems": [
    "C01_regroup_keeps_reading",
    "C01_visit_keeps_reading"
   ],
   "note": "Rewrite of one chain (reading preserved for every expression) and the whole visitor at any depth, also when errors are found."
  },
  {
   "property": "C02",
   "status": "proved",
   "theorems": [
    "C02_result_legal"
   ],
   "note": "Domain: expressions whose operands are not bare infix expressions, the shape the parser produces (C36)."
  },
  {
   "property": "C03",
   "status": "proved",
   "theorems": [
    "C03_success_iff_legal_grouping",
    "C03_legal_grouping_unique",
    "C03_failure_iff_no_legal_grouping"
   ],
   "note": "Success iff a legal grouping exists, uniqueness, failure iff none exists."
  },
  {
   "property": "C04",
   "status": "proved",
   "theorems": [
    "C04_error_is_genuine",
    "C04_clash_excludes_grouping"
   ],
   "note": "Errors are genuine clashes and every clash produces an error."
  },
  {
   "property": "C05",
   "status": "proved",
   "theorems": [
    "C05_rewrite_never_panics",
    "C05_resolve_never_panics"
   ],
   "note": ""
  },
  {
   "property": "C06",
   "status": "proved",
   "theorems": [
    "C06_agrees_with_haskell_report"
   ],
   "note": "Report algorithm transcribed in SpecFixity.v with fuel proved sufficient."
  },
  {
   "property": "C07",
   "status": "proved",
   "theorems": [
    "C07_resolution_is_regrouping",
    "C07_resolution_complete",
    "C07_resolution_deterministic"
   ],
   "note": "Domain: flat expressions (parser output, C36) without a let listing one operator twice (see C10)."
  },
  {
   "property": "C08",
   "status": "proved",
   "theorems": [
    "C08_again",
    "C08_resolution_idempotent"
   ],
   "note": ""
  },
  {
   "property": "C09",
   "status": "proved",
   "theorems": [
    "C09_let_scope",
    "C09_table_in_body",
    "C09_rest_unaffected"
   ],
   "note": ""
  },
  {
   "property": "C10",
   "status": "proved",
   "theorems": [
    "C10_table_restored",
    "C10_duplicate_leaks_refuted"
   ],
   "note": "Restoration for every expression whose lets list no operator twice; C10_duplicate_leaks_refuted shows the leak otherwise, which the statement itself mentions."
  },
  {
   "property": "C11",
   "status": "proved",
   "theorems": [
    "C11_declarations_hoisted_last_wins",
    "C11_position_irrelevant"
   ],
   "note": ""
  },
  {
   "property": "C12",
   "status": "proved",
   "theorems": [
    "C12_lookup_is_latest",
    "C12_spelling_irrelevant",
    "C12_keys_distinct",
    "C12_insert_order_and_old",
    "C12_remove_order_and_old",
    "C12_clear"
   ],
   "note": ""
  },
  {
   "property": "C13",
   "status": "proved",
   "theorems": [
    "C13_only_relative_precedence",
    "C13_only_relative_precedence_deep"
   ],
   "note": ""
  },
  {
   "property": "C14",
   "status": "proved",
   "theorems": [
    "C14_fails_iff_ambiguous",
    "C14_errors_genuine_once_and_taken"
   ],
   "note": ""
  },
  {
   "property": "C15",
   "status": "proved",
   "theorems": [
    "C15_rejected",
    "C15_ambiguous"
   ],
   "note": "For texts without newline-return. A rejected text that crashes the program instead is covered by C53."
  },
  {
   "property": "C16",
   "status": "partial",
   "theorems": [
    "C16_prelude_loaded",
    "C16_math_loaded_partial",
    "C16_math_multiplication_refuted",
    "C16_math_count",
    "C16_prelude_count_refuted"
   ],
   "note": "Prelude fixities proved. --math loads * / % with precedence 6 instead of 7 (refuted, rest proved as partial); the prelude count is 23 for 24 operators (refuted)."
  },
  {
   "property": "C17",
   "status": "proved",
   "theorems": [
    "C17_iteration_is_source_order",
    "C17_initial_count"
   ],
   "note": ""
  },
  {
   "property": "C18",
   "status": "proved",
   "theorems": [
    "C18_table_irrelevant"
   ],
   "note": "Every expression, including those on which printing panics."
  },
  {
   "property": "C19",
   "status": "partial",
   "theorems": [
    "C19_reads_back_partial",
    "C19_applied_lambda_refuted",
    "C19_short_name_refuted",
    "C19_section_refuted",
    "C19_control_refuted",
    "C19_empty_pattern_refuted",
    "C19_not_idempotent_refuted"
   ],
   "note": "Proved for readable expressions (SpecPrinter.v): under any table, up to parentheses and the declarations of let, which are not printed. Refuted for parsed expressions outside: an applied lambda, an operator of one letter, a section of a name, control characters in literals, the empty list pattern. C78 decides this on typed expressions."
  },
  {
   "property": "C20",
   "status": "proved",
   "theorems": [
    "C20_panics_iff_negation",
    "C20_parsed_prints",
    "C20_parsed_prints_unresolved"
   ],
   "note": "Exactly the expressions with a negation panic; nothing parsed has one, before or after resolution, with or without errors."
  },
  {
   "property": "C21",
   "status": "proved",
   "theorems": [
    "C21_nested_and_plain",
    "C21_matched",
    "C21_parsed"
   ],
   "note": "Every expression without escape characters in names; for parsed ones it is enough that the source has none. Example C21_escape_passes: an apostrophe lets one into an operator."
  },
  {
   "property": "C22",
   "status": "partial",
   "theorems": [
    "C22_listing",
    "C22_complete",
    "C22_reads_back_partial",
    "C22_short_name_refuted",
    "C22_display"
   ],
   "note": "Listing, completeness and appearance for every table. Read back for tables whose operators can be read back (refuted for a one-letter name). C78 proves it for all tables one can arrive at, with a test on names."
  },
  {
   "property": "C23",
   "status": "proved",
   "theorems": [
    "C23_lexing_terminates",
    "C23_token_count",
    "C23_unknown_forever"
   ],
   "note": "Hypothesis letters U: three facts of the Unicode tables (see DESIGN.md). Holds at every lexer state, not only reachable ones."
  },
  {
   "property": "C24",
   "status": "proved",
   "theorems": [
    "C24_positions",
    "C24_positions_any_source",
    "C24_panics",
    "C24_newline_return_wrong",
    "C24_done"
   ],
   "note": "Exact position for sources without newline-return; exact (wrong) position for all sources; witness of wrong token and panic. Panics characterised."
  },
  {
   "property": "C25",
   "status": "proved",
   "theorems": [
    "C25_spans_and_texts",
    "C25_slice_is_name"
   ],
   "note": "String literals with a continuation line start their span inside the literal; the theorem covers spans of all tokens and texts of names and operators."
  },
  {
   "property": "C26",
   "status": "proved",
   "theorems": [
    "C26_longest_match"
   ],
   "note": "Longest match for every token of every run."
  },
  {
   "property": "C27",
   "status": "proved",
   "theorems": [
    "C27_reserved_never_names"
   ],
   "note": ""
  },
  {
   "property": "C28",
   "status": "proved",
   "theorems": [
    "C28_integers",
    "C28_value"
   ],
   "note": ""
  },
  {
   "property": "C29",
   "status": "proved",
   "theorems": [
    "C29_strings",
    "C29_unterminated",
    "C29_total",
    "C29_deterministic"
   ],
   "note": "Together with totality and determinism of the two cases."
  },
  {
   "property": "C30",
   "status": "proved",
   "theorems": [
    "C30_leading_white_space",
    "C30_white_space_skipped"
   ],
   "note": "For arbitrary sources (including newline-return) and at every point of a run."
  },
  {
   "property": "C31",
   "status": "partial",
   "theorems": [
    "C31_line_comment",
    "C31_block_comment_partial",
    "C31_block_comment_takes_next",
    "C31_block_comment_refuted",
    "C31_unterminated",
    "C31_total"
   ],
   "note": "Line comments, unterminated comments proved; block comments proved when white space or nothing follows. In general the character after the closing mark is lost: C31_block_comment_takes_next, C31_block_comment_refuted."
  },
  {
   "property": "C32",
   "status": "partial",
   "theorems": [
    "C32_plain_character",
    "C32_escape",
    "C32_unicode_partial",
    "C32_unicode_end_refuted"
   ],
   "note": "Values proved for all three forms. The end of a unicode escape is not the closing quote: one more character is swallowed (refuted)."
  },
  {
   "property": "C33",
   "status": "proved",
   "theorems": [
    "C33_both_spellings",
    "C33_apostrophe_second"
   ],
   "note": ""
  },
  {
   "property": "C34",
   "status": "proved",
   "theorems": [
    "C34_parsing_terminates",
    "C34_panics"
   ],
   "note": "Termination for every source; causes of panics for every source without newline-return (with it the lexer slices wrongly, see C24)."
  },
  {
   "property": "C35",
   "status": "proved",
   "theorems": [
    "C35_parse_is_grammar",
    "C35_parse_expr_is_grammar",
    "C35_unambiguous"
   ],
   "note": "Both directions (sound and complete against the grammar of SpecParser.v), unambiguity, and the single-expression entry point."
  },
  {
   "property": "C36",
   "status": "proved",
   "theorems": [
    "C36_surface_form",
    "C36_flat"
   ],
   "note": "Every source, including newline-return."
  },
  {
   "property": "C37",
   "status": "proved",
   "theorems": [
    "C37_declarations",
    "C37_default_dash_fails"
   ],
   "note": "As text, for every list of operators in either spelling (plain or backquoted)."
  },
  {
   "property": "C38",
   "status": "proved",
   "theorems": [
    "C38_error_positions",
    "C38_expected_token"
   ],
   "note": "Sources without newline-return; also says which token was found and that it really stands there."
  },
  {
   "property": "C39",
   "status": "proved",
   "theorems": [
    "C39_application_left",
    "C39_layout"
   ],
   "note": "Single line in general; over several lines for two atoms of any form."
  },
  {
   "property": "C40",
   "status": "proved",
   "theorems": [
    "C40_one_line"
   ],
   "note": "Exactly the grammar without layout, both directions."
  },
  {
   "property": "C41",
   "status": "proved",
   "theorems": [
    "C41_equal_symbols_iff_equal_strings",
    "C41_text_is_permanent",
    "C41_wraps_at_the_limit"
   ],
   "note": "The heap of strings is explicit; references are offsets into buffers."
  },
  {
   "property": "C42",
   "status": "proved",
   "theorems": [
    "C42_predefined_symbols",
    "C42_others_are_not_predefined"
   ],
   "note": "Every sequence of requests."
  },
  {
   "property": "C43",
   "status": "proved",
   "theorems": [
    "C43_buffers_stay_in_place",
    "C43_slices_stay_valid"
   ],
   "note": "Every sequence of requests."
  },
  {
   "property": "C44",
   "status": "proved",
   "theorems": [
    "C44_format_numbers",
    "C44_colors_as_text",
    "C44_normal_as_text",
    "C44_all_colors",
    "C44_named_colors",
    "C44_web_colors",
    "C44_display_shows_text_as_asked",
    "C44_never_leaks",
    "C44_nested_never_leaks",
    "C44_builders",
    "C44_set_unset_toggle",
    "C44_start_string",
    "C44_normal_resets_everything"
   ],
   "note": "Every combination of flags and colours."
  },
  {
   "property": "C45",
   "status": "partial",
   "theorems": [
    "C45_rgb_background_partial",
    "C45_ansi_background_refuted",
    "C45_bg_wrapper"
   ],
   "note": "RGB backgrounds proved; every ANSI background emits a foreground code (refuted)."
  },
  {
   "property": "C46",
   "status": "partial",
   "theorems": [
    "C46_hex_roundtrip",
    "C46_hex_onto",
    "C46_hex_saturates",
    "C46_adjust_partial",
    "C46_adjust_refuted",
    "C46_adjust_exact",
    "C46_adjust_swapped"
   ],
   "note": "Hex conversion proved. Increments and decrements: exactly when they do what they are named after (C46_adjust_exact), and what the methods named after green and blue do instead (C46_adjust_swapped); in general the channels are not the named ones (refuted)."
  },
  {
   "property": "C47",
   "status": "proved",
   "theorems": [
    "C47_rainbow_cycles",
    "C47_colors",
    "C47_tick_changes_colour",
    "C47_ansi_rainbow"
   ],
   "note": "Every depth."
  },
  {
   "property": "C48",
   "status": "proved",
   "theorems": [
    "C48_prefix_iff_first_word",
    "C48_prefix_is_a_word",
    "C48_prefix_general",
    "C48_char_matcher"
   ],
   "note": "Every pair of texts."
  },
  {
   "property": "C49",
   "status": "partial",
   "theorems": [
    "C49_strip_prefix_partial",
    "C49_leading_space_refuted",
    "C49_no_panic",
    "C49_exact",
    "C49_right_iff",
    "C49_panics_iff"
   ],
   "note": "Exactly when it holds is proved: nothing but white space after the word, or no white space before it; otherwise the cut is at the wrong place, and what is returned or that it panics is proved too (C49_exact, C49_right_iff, C49_panics_iff)."
  },
  {
   "property": "C50",
   "status": "proved",
   "theorems": [
    "C50_numlen_base",
    "C50_digits_exist",
    "C50_numlen_is_display_length"
   ],
   "note": "Every number."
  },
  {
   "property": "C51",
   "status": "proved",
   "theorems": [
    "C51_one_reaction",
    "C51_line",
    "C51_together",
    "C51_history"
   ],
   "note": "Lines are classified by the relation reads of SpecRepl.v; sessions are compared by actions, fixities, error list and history path."
  },
  {
   "property": "C52",
   "status": "partial",
   "theorems": [
    "C52_kept",
    "C52_performs",
    "C52_others_write",
    "C52_history_path",
    "C52_cleared",
    "C52_reset_partial",
    "C52_reset_count_refuted"
   ],
   "note": "Everything proved except the count of :reset, which is one too low (C52_reset_count_refuted)."
  },
  {
   "property": "C53",
   "status": "partial",
   "theorems": [
    "C53_crashes_iff",
    "C53_one_panic",
    "C53_goes_on",
    "C53_ends_iff",
    "C53_leaving",
    "C53_history",
    "C53_crashes_partial",
    "C53_never_stuck",
    "C53_text_refuted"
   ],
   "note": "Exact conditions for ending and, for texts without newline-return, for stopping by a panic (C53_crashes_iff, C53_goes_on). Texts that stop the program exist (C53_text_refuted), hence partial."
  },
  {
   "property": "C54",
   "status": "partial",
   "theorems": [
    "C54_readme_partial",
    "C54_only_fixity_lines",
    "C54_declarations_partial",
    "C54_lines_joined_refuted"
   ],
   "note": "Which lines are used: proved. Each as its own declaration: the lines are joined without a separator; proved for lines that are declarations of the README's syntax (C54_readme_partial) or of the printed form (C54_declarations_partial); refuted with comments and apostrophe operators."
  },
  {
   "property": "C55",
   "status": "proved",
   "theorems": [
    "C55_line",
    "C55_history",
    "C55_unique",
    "C55_end_to_end"
   ],
   "note": "From any reachable session and from the history. Hypothesis tidy: no newline-return, no let listing an operator twice (C10)."
  },
  {
   "property": "C56",
   "status": "proved",
   "theorems": [
    "C56_lexer_is_grammar",
    "C56_grammar_unambiguous",
    "C56_every_token"
   ],
   "note": "Both directions, plus unambiguity and errors."
  },
  {
   "property": "C57",
   "status": "partial",
   "theorems": [
    "C57_sign_kept_partial",
    "C57_sign_lost_refuted",
    "C57_exact"
   ],
   "note": "Kept directly inside parentheses; lost as an element of a list or tuple pattern (refuted). Exact for all programs: the negative patterns are the minus signs directly after an opening parenthesis (C57_exact)."
  },
  {
   "property": "C58",
   "status": "partial",
   "theorems": [
    "C58_empty_list_partial",
    "C58_empty_list_refuted",
    "C58_exact"
   ],
   "note": "Refuted: [] fails, []] is needed (the extra bracket version is proved). Exact for all accepted programs: every pair of brackets closed at once in a pattern is followed by another closing bracket, and these are the empty list patterns (C58_exact)."
  },
  {
   "property": "C59",
   "status": "partial",
   "theorems": [
    "C59_prompt",
    "C59_pending_partial",
    "C59_exact",
    "C59_pending_refuted"
   ],
   "note": "Every change of the prompt: proved, and determined. That the second prompt means pending text: proved for histories of blank lines, commands, lines opening a brace before some text, plain lines, and lines in braces when nothing is pending. Refuted for lines ended by a backslash, lines in braces while text is pending, and a lone brace. C59_exact gives, for every event, exactly when the prompt is right after it."
  },
  {
   "property": "C60",
   "status": "proved",
   "theorems": [
    "C60_with_path",
    "C60_message"
   ],
   "note": "For texts without newline-return; texts that stop the program are covered by C53. The end of the text is shown as a NUL character. Which token is blamed: see C38."
  },
  {
   "property": "C61",
   "status": "proved",
   "theorems": [
    "C61_response",
    "C61_always"
   ],
   "note": "From any reachable session; loaded texts tidy as in C55. Listings are compared by their visible text, for names without escape characters."
  },
  {
   "property": "C62",
   "status": "proved",
   "theorems": [
    "C62_loading"
   ],
   "note": "Loaded texts tidy as in C55."
  },
  {
   "property": "C63",
   "status": "proved",
   "theorems": [
    "C63_first_error"
   ],
   "note": "The valid-prefix property of the parser. Nothing is claimed about completing the text before a lexical mistake; C38 locates those errors."
  },
  {
   "property": "C64",
   "status": "proved",
   "theorems": [
    "C64_creates_only_its_own",
    "C64_place",
    "C64_again",
    "C64_starts"
   ],
   "note": "The refusals of the system are arbitrary; HOME is the value at compile time, as in the code."
  },
  {
   "property": "C65",
   "status": "partial",
   "theorems": [
    "C65_removes_only_its_own",
    "C65_undoes_start_partial",
    "C65_messages",
    "C65_current_directory_refuted",
    "C65_nonempty_refuted"
   ],
   "note": "Only its own files: proved for every disk. Undoing: proved for the directory below the home directory; refuted for the current directory, where the file has another name than the one looked for. Messages: exact; that a directory called non-empty has entries is refuted. The function is not called by the program."
  },
  {
   "property": "C66",
   "status": "partial",
   "theorems": [
    "C66_texts_in_order",
    "C66_composed_partial",
    "C66_exact",
    "C66_right_iff",
    "C66_style_lost_refuted",
    "C66_wrapped_blue",
    "C66_builders",
    "C66_highlight",
    "C66_colors",
    "C66_colors_shown",
    "C66_sequence",
    "C66_highlighted"
   ],
   "note": "How any composition looks is proved exactly (C66_exact), and exactly when it looks as wanted (C66_right_iff): always if within a style nothing follows a styled part (C66_composed_partial); what follows one loses the style (C66_style_lost_refuted)."
  },
  {
   "property": "C67",
   "status": "proved",
   "theorems": [
    "C67_remove_last",
    "C67_add_fixity",
    "C67_loading_twice",
    "C67_resolved",
    "C67_resolve_expr",
    "C67_entries"
   ],
   "note": ""
  },
  {
   "property": "C68",
   "status": "proved",
   "theorems": [
    "C68_width",
    "C68_operator_names",
    "C68_operator_equality",
    "C68_symbol_char",
    "C68_unit"
   ],
   "note": ""
  },
  {
   "property": "C69",
   "status": "partial",
   "theorems": [
    "C69_panics",
    "C69_value_partial",
    "C69_right_iff",
    "C69_exponent_refuted"
   ],
   "note": "Exact: a negative exponent panics (exactly then), without exponent the value is right, a positive exponent is read as further digits and never gives the right value (C69_right_iff). No caller in the program."
  },
  {
   "property": "C70",
   "status": "proved",
   "theorems": [
    "C70_visits_everything",
    "C70_walks",
    "C70_programs"
   ],
   "note": ""
  },
  {
   "property": "C71",
   "status": "proved",
   "theorems": [
    "C71_spans",
    "C71_index",
    "C71_empty"
   ],
   "note": ""
  },
  {
   "property": "C72",
   "status": "proved",
   "theorems": [
    "C72_something_comes",
    "C72_one_thing_comes",
    "C72_next"
   ],
   "note": "Hypothesis letters U as in C23. Exactness in both directions: existence, uniqueness, and next reports it."
  },
  {
   "property": "C73",
   "status": "proved",
   "theorems": [
    "C73_one_verdict",
    "C73_some_verdict",
    "C73_accepts",
    "C73_crashes",
    "C73_mistakes",
    "C73_blames",
    "C73_blames_token",
    "C73_completable"
   ],
   "note": "Unconditional equivalences for acceptance, panics and mistakes; for blamed tokens and the end the text must not end in a unicode escape (its lexeme swallows the next character, C32), one direction holds without."
  },
  {
   "property": "C74",
   "status": "proved",
   "theorems": [
    "C74_white",
    "C74_ascii",
    "C74_others",
    "C74_names",
    "C74_disjoint",
    "C74_digits",
    "C74_digit_value",
    "C74_escapes",
    "C74_radix_letters",
    "C74_match_any"
   ],
   "note": "Disjointness for tables in which letters are not white space or digits (letters U)."
  },
  {
   "property": "C75",
   "status": "proved",
   "theorems": [
    "C75_length",
    "C75_decodable",
    "C75_bytes",
    "C75_slice",
    "C75_position"
   ],
   "note": "Encoding defined from the standard. Lexer positions for texts without newline-return, see C24."
  },
  {
   "property": "C76",
   "status": "proved",
   "theorems": [
    "C76_shape",
    "C76_one_line",
    "C76_indent"
   ],
   "note": "Texts without newline-return; token sequences by the lexical grammar (C23, C72)."
  },
  {
   "property": "C77",
   "status": "proved",
   "theorems": [
    "C77_concatenation"
   ],
   "note": "Both directions."
  },
  {
   "property": "C78",
   "status": "proved",
   "theorems": [
    "C78_expressions",
    "C78_tables"
   ],
   "note": "Plain is a boolean test on the typed expression (SpecTyped.v): no control characters in literals, no one-letter name as operator, no applied lambda or let, no section of a name, no empty list pattern. Assumes of Unicode that the superscripts and subscripts of the language are not letters (scripts)."
  },
  {
   "property": "C79",
   "status": "partial",
   "theorems": [
    "C79_isolated",
    "C79_meaning",
    "C79_own_symbols",
    "C79_predefined",
    "C79_carried_partial",
    "C79_handed_out",
    "C79_other_text_refuted",
    "C79_static_refuted"
   ],
   "note": "Holds within a thread; the exact condition for other threads is proved. Across threads it fails (C79_other_text_refuted), and a &'static str handed out dangles once its thread has ended (C79_static_refuted)."
  },
  {
   "property": "C80",
   "status": "partial",
   "theorems": [
    "C80_interning",
    "C80_symbol_refuted"
   ],
   "note": "Exact for all calls. A Symbol is AsRef<str>, but interning one always panics on the second borrow (C80_symbol_refuted)."
  },
  {
   "property": "C81",
   "status": "proved",
   "theorems": [
    "C81_added",
    "C81_outcome",
    "C81_program",
    "C81_kept",
    "C81_again",
    "C81_two_goes"
   ],
   "note": "Which declarations are added is proved for texts with tokens; the outcome and that nothing is lost for every text."
  },
  {
   "property": "C82",
   "status": "proved",
   "theorems": [
    "C82_separated",
    "C82_declarations",
    "C82_operators"
   ],
   "note": "Exact, for the parsers of declarations and operators as instances."
  },
  {
   "property": "C83",
   "status": "partial",
   "theorems": [
    "C83_declarations_partial",
    "C83_programs_partial",
    "C83_reserved_refuted"
   ],
   "note": "Exactly which declarations of the README are read as described is proved. Not read: those with a lone backslash or arrow as operator, and without a number those that begin with a minus or at sign (C83_reserved_refuted). For several declarations one after the other: C83_programs_partial."
  },
  {
   "property": "C84",
   "status": "partial",
   "theorems": [
    "C84_expressions_partial",
    "C84_expressions_refuted"
   ],
   "note": "Exactly which sentences on one line are read as one expression is proved: those where a lambda or let stands directly after an operand only within the brackets of a list (where it begins another item), and a minus or at sign neither directly after an opening parenthesis nor after the keyword of a declaration. The others are refused or split (C84_expressions_refuted). Patterns are variables and wildcards, as the README does not define them."
  },
  {
   "property": "C85",
   "status": "partial",
   "theorems": [
    "C85_names_partial",
    "C85_names_refuted",
    "C85_tildes",
    "C85_promoted"
   ],
   "note": "Proved for identifiers that begin with a lower case letter and are not reserved, for promoted names and for comments. All other identifiers except the wildcard make the parser panic (C85_names_refuted)."
  },
  {
   "property": "C86",
   "status": "partial",
   "theorems": [
    "C86_characters_partial",
    "C86_strings_refuted"
   ],
   "note": "Proved in character literals; in string literals no escape is decoded, for any spelling (C86_strings_refuted)."
  },
  {
   "property": "C87",
   "status": "partial",
   "theorems": [
    "C87_made",
    "C87_combined",
    "C87_readable_partial",
    "C87_charstring_refuted",
    "C87_bytestring",
    "C87_valid"
   ],
   "note": "bytestring: exact. charstring and combine_chars: no panic and the right bytes, but the reference points into a vector that is dropped on return, so it can be read only if there is no character (C87_charstring_refuted)."
  },
  {
   "property": "C88",
   "status": "partial",
   "theorems": [
    "C88_char_partial",
    "C88_char_refuted",
    "C88_ident_partial",
    "C88_ident_refuted"
   ],
   "note": "Exact. Char::as_str dangles for every character; Ident::as_str panics for every identifier except the empty list (C88_char_refuted, C88_ident_refuted)."
  },
  {
   "property": "C89",
   "status": "proved",
   "theorems": [
    "C89_table",
    "C89_consistent",
    "C89_program"
   ],
   "note": "Exact: equivalent to the consistency of Hash and Eq. The contract of the hash table of positions (a search looks at least at the slots of its hash) is an assumption of the statement."
  },
  {
   "property": "C90",
   "status": "partial",
   "theorems": [
    "C90_by_symbol",
    "C90_by_text_refuted",
    "C90_texts_apart",
    "C90_symbols_apart"
   ],
   "note": "Proved for operators looked up by symbol. Symbols cannot be looked up by text: the number is hashed on one side, the text on the other (C90_by_text_refuted). The program has no such table. Texts and symbol numbers that differ in one byte hash differently (C90_texts_apart, C90_symbols_apart)."
  },
  {
   "property": "C91",
   "status": "proved",
   "theorems": [
    "C91_interner",
    "C91_asserts"
   ],
   "note": "The contract of the hash table (a search looks at slots of the table, and at least at those of its hash) is an assumption of the statement; without it the same text gets two symbols (C91_overlooked)."
  },
  {
   "property": "C92",
   "status": "partial",
   "theorems": [
    "C92_exact",
    "C92_compare_partial",
    "C92_end_refuted",
    "C92_same",
    "C92_length"
   ],
   "note": "Exact (C92_exact, C92_length): the end of input is equal to NUL and has length one, so equality is not transitive (C92_end_refuted). The lexer makes no such comparison."
  },
  {
   "property": "C93",
   "status": "partial",
   "theorems": [
    "C93_texts",
    "C93_characters",
    "C93_literals_partial",
    "C93_literals_refuted"
   ],
   "note": "Proved for texts, characters and integers, and for fractional numbers that show a fraction or a negative exponent (C93_literals_partial); others look like integers or like numbers with more digits (C93_literals_refuted)."
  },
  {
   "property": "C94",
   "status": "proved",
   "theorems": [
    "C94_symbols",
    "C94_colors",
    "C94_formats"
   ],
   "note": "Display without width or precision, Debug without the flag #."
  },
  {
   "property": "C95",
   "status": "proved",
   "theorems": [
    "C95_one_by_one",
    "C95_exact",
    "C95_wrapping",
    "C95_short",
    "C95_bound",
    "C95_depth",
    "C95_depth_bound"
   ],
   "note": "Justifies the unbounded counters of Lexer.v."
  },
  {
   "property": "C96",
   "status": "proved",
   "theorems": [
    "C96_resolve",
    "C96_lookup"
   ],
   "note": "For whole programs with the table, the spelling of operators included."
  },
  {
   "property": "C97",
   "status": "proved",
   "theorems": [
    "C97_placed",
    "C97_needed",
    "C97_evaluated"
   ],
   "note": "C97_placed and C97_needed with let around the place, C97_evaluated for the program, without let."
  },
  {
   "property": "C98",
   "status": "proved",
   "theorems": [
    "C98_bound",
    "C98_rows",
    "C98_not_linear"
   ],
   "note": "Comparisons and copied nodes counted by Costs.v along the run of the model."
  },
  {
   "property": "C99",
   "status": "proved",
   "theorems": [
    "C99_groupings",
    "C99_programs",
    "C99_rejected"
   ],
   "note": "Lets that list one operator twice are excluded, as in C10. Undeclared operators group to the left and have to be declared on one side."
  },
  {
   "property": "C100",
   "status": "proved",
   "theorems": [
    "C100_loaded",
    "C100_restored",
    "C100_haskell_refuted",
    "C100_letter_refuted"
   ],
   "note": "Exactly the loads of C54 and C62 with the tables of C78. Refuted under a Haskell name, where lines are joined (C100_haskell_refuted), and for names of one letter, which are excluded (C100_letter_refuted)."
  },
  {
   "property": "C101",
   "status": "partial",
   "theorems": [
    "C101_served_partial",
    "C101_unknown",
    "C101_greeting",
    "C101_save_refuted",
    "C101_cd_refuted",
    "C101_clear_refuted"
   ],
   "note": "Refuted: :save is offered and unknown in every session; :cd without a path is offered and refused; the explanation of :clear --session mentions options that are not understood. All else is served (C101_served_partial), in particular all that the greeting offers (C101_greeting)."
  },
  {
   "property": "C102",
   "status": "proved",
   "theorems": [
    "C102_step",
    "C102_run",
    "C102_exchange"
   ],
   "note": "A bisimulation between reachable sessions. Every answer is equal word for word; only a listing of all fixities may differ, in its order, and C102_ex shows that it does."
  },
  {
   "property": "C103",
   "status": "proved",
   "theorems": [
    "C103_obtainable",
    "C103_twenty"
   ],
   "note": "An exact condition in both directions. C103_twenty_one is a grouping of twenty-one operators that needs eleven levels."
  },
  {
   "property": "C104",
   "status": "proved",
   "theorems": [
    "C104_typed",
    "C104_split",
    "C104_again",
    "C104_several"
   ],
   "note": "For whole programs: C104_ex_bad shows that a file with a syntax error declares nothing although its first half alone would."
  },
  {
   "property": "C105",
   "status": "proved",
   "theorems": [
    "C105_groupings",
    "C105_evaluated",
    "C105_clashes"
   ],
   "note": "Equivalences. C13 is the case where nothing is replaced; C96 covers let for replacements that keep operators apart."
  },
  {
   "property": "C106",
   "status": "proved",
   "theorems": [
    "C106_lifted",
    "C106_kept",
    "C106_instead",
    "C106_exchanged",
    "C106_joined",
    "C106_hidden",
    "C106_idle"
   ],
   "note": "C106_lifted and C106_instead are equivalences for whole lists of lets; the others are their instances."
  },
  {
   "property": "C107",
   "status": "proved",
   "theorems": [
    "C107_values",
    "C107_typed",
    "C107_parens",
    "C107_left_out",
    "C107_left_out_right"
   ],
   "note": "C107_values is an equivalence that describes exactly the expressions that are values."
  },
  {
   "property": "C108",
   "status": "partial",
   "theorems": [
    "C108_group",
    "C108_group_only",
    "C108_operator",
    "C108_applied",
    "C108_list",
    "C108_tuple_partial",
    "C108_infix",
    "C108_tuple_refuted"
   ],
   "note": "Tuples: proved for texts without apostrophes after the first component. Refuted without that condition (C108_tuple_refuted): a unicode escape takes the newline after it with it, and an argument in the first column is then further to the right than the escape but not than the comma. Everything else without conditions; C108_group_only is the converse for parentheses."
  },
  {
   "property": "C109",
   "status": "proved",
   "theorems": [
    "C109_exchange",
    "C109_accepts",
    "C109_rewritten",
    "C109_patterns_needed"
   ],
   "note": "C109_patterns_needed shows why the place between a lambda and its arrow is excluded: there the parentheses hold a pattern."
  },
  {
   "property": "C110",
   "status": "proved",
   "theorems": [
    "C110_kinds",
    "C110_respelled",
    "C110_one_line",
    "C110_resolved"
   ],
   "note": "Integers stay as they are because a precedence in a declaration has to be at most 9 (C110_ex_integer); minus and at are tokens of their own."
  },
  {
   "property": "C111",
   "status": "proved",
   "theorems": [
    "C111_rejected",
    "C111_stops",
    "C111_layout"
   ],
   "note": "For texts without lexical errors; where the error is reported is C63."
  },
  {
   "property": "C112",
   "status": "proved",
   "theorems": [
    "C112_parameters",
    "C112_layers",
    "C112_curried"
   ],
   "note": "The body stands in parentheses because the columns of its arguments are compared with that of the arrow (C112_ex_column)."
  },
  {
   "property": "C113",
   "status": "proved",
   "theorems": [
    "C113_answer",
    "C113_read",
    "C113_read_expr",
    "C113_printed",
    "C113_regrouped",
    "C113_regrouped_expr",
    "C113_text"
   ],
   "note": "For texts without a line feed directly before a carriage return (no_lfcr); signs in the parameters of a lambda are lost (C57) and therefore left out."
  },
  {
   "property": "C114",
   "status": "partial",
   "theorems": [
    "C114_matched",
    "C114_brackets_partial",
    "C114_counts",
    "C114_brackets_refuted"
   ],
   "note": "Violated by the code (C114_brackets_refuted): an empty list among the parameters of a lambda has to be closed twice. C114_matched is exact otherwise: with the second of those brackets left out everything matches; parentheses, lambdas and lets always do (C114_counts)."
  },
  {
   "property": "C115",
   "status": "proved",
   "theorems": [
    "C115_size",
    "C115_work"
   ],
   "note": "Comparisons and copies are counted as in C98; time spent in the lexer and parser is not counted."
  },
  {
   "property": "C116",
   "status": "proved",
   "theorems": [
    "C116_same",
    "C116_order",
    "C116_split",
    "C116_overridden"
   ],
   "note": "The order in which the table lists its operators does depend on the order of the declarations (C102)."
  },
  {
   "property": "C117",
   "status": "proved",
   "theorems": [
    "C117_program",
    "C117_declarations",
    "C117_let"
   ],
   "note": "Operators are compared by name, as the table does. The tables are taken to hold each operator once, as all tables built by the program do."
  },
  {
   "property": "C118",
   "status": "proved",
   "theorems": [
    "C118_first",
    "C118_one",
    "C118_exactly",
    "C118_longer",
    "C118_before",
    "C118_program",
    "C118_determined",
    "C118_typed",
    "C118_loaded"
   ],
   "note": "Expressions as the parser delivers them (C36). A let that lists an operator twice does not restore the table (C10), so such lets are excluded."
  }
 ]
}