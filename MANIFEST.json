{"claims": [
{"property": "C01", "status": "proved", "theorems": ["C01_version_total_order", "C01_numbers_decide_first"], "note": ""},
{"property": "C02", "status": "proved", "theorems": ["C02_prerelease_precedence"], "note": ""},
{"property": "C03", "status": "proved", "theorems": ["C03_build_metadata_order", "C03_build_metadata_total"], "note": ""},
{"property": "C04", "status": "proved", "theorems": ["C04_parse_version_grammar", "C04_parse_version_grammar_any_build"], "note": ""},
{"property": "C05", "status": "partial", "theorems": ["C05_overflow_rejected_partial", "C05_overflow_rejected_refuted", "C05_overflow_panics", "C05_overflow_wraps_refuted"], "note": "The full claim is false of the code (parse_int adds the last digit unchecked): refuted with a concrete version; the partial theorem proves it outside the exact set of failing numbers, and the others describe what happens inside it in debug and release builds."},
{"property": "C06", "status": "proved", "theorems": ["C06_version_display_is_trimmed_input", "C06_version_parse_display", "C06_parsed_versions_wf"], "note": ""},
{"property": "C07", "status": "proved", "theorems": ["C07_parse_requirement_grammar", "C07_parse_requirement_any_build"], "note": ""},
{"property": "C08", "status": "proved", "theorems": ["C08_requirement_display"], "note": ""},
{"property": "C09", "status": "proved", "theorems": ["C09_requirement_offsets"], "note": ""},
{"property": "C10", "status": "proved", "theorems": ["C10_matching_never_panics"], "note": ""},
{"property": "C11", "status": "proved", "theorems": ["C11_comparator_decision", "C11_parsed_comparators_wf", "C11_requirement_decision"], "note": ""},
{"property": "C12", "status": "proved", "theorems": ["C12_prerelease_opt_in", "C12_release_unaffected"], "note": ""},
{"property": "C13", "status": "proved", "theorems": ["C13_conjunction", "C13_order_and_duplicates_irrelevant", "C13_single_comparator"], "note": ""},
{"property": "C14", "status": "proved", "theorems": ["C14_build_metadata_ignored"], "note": ""},
{"property": "C15", "status": "proved", "theorems": ["C15_version_errors_say", "C15_requirement_errors_say", "C15_version_error_spans", "C15_requirement_error_spans", "C15_semver_panics_only_on_overflow"], "note": "error_says in SemverSpec.v gives the meaning of each error; the part named by TrailingCharacters is left out of it, C15_trailing_part_refuted shows that it is wrong."},
{"property": "C16", "status": "proved", "theorems": ["C16_inline_strings"], "note": ""},
{"property": "C17", "status": "proved", "theorems": ["C17_positions_total_order", "C17_positions_reading_order", "C17_plus_minus", "C17_minus_plus"], "note": ""},
{"property": "C18", "status": "proved", "theorems": ["C18_mark_reset"], "note": ""},
{"property": "C19", "status": "proved", "theorems": ["C19_sort_diagnostics"], "note": ""},
{"property": "C20", "status": "proved", "theorems": ["C20_lexer_total"], "note": "every input, any code points; offsets unbounded"},
{"property": "C21", "status": "proved", "theorems": ["C21_positions"], "note": ""},
{"property": "C22", "status": "proved", "theorems": ["C22_nothing_lost"], "note": ""},
{"property": "C23", "status": "proved", "theorems": ["C23_accepted_documents", "C23_string_values", "C23_string_value_unique", "C23_basic_roundtrip", "C23_literal_roundtrip", "C23_text_characters"], "note": ""},
{"property": "C24", "status": "proved", "theorems": ["C24_invalid_reported", "C24_illegal_escape", "C24_illegal_codepoint", "C24_control_character", "C24_unclosed_at_end", "C24_unclosed_on_line", "C24_fold_carriage_return_refuted"], "note": "the specification lets a carriage return stand alone in the white space after a line-ending backslash, as the code does; TOML 1.0 does not (refuted lemma)"},
{"property": "C25", "status": "proved", "theorems": ["C25_integers", "C25_overflow_reported", "C25_leading_zero_reported"], "note": "iff against the TOML integer grammar"},
{"property": "C26", "status": "partial", "theorems": ["C26_prefixed_exact_partial", "C26_prefixed_wraps", "C26_overflow_reported_refuted"], "note": "exact below 2^63; the code never reports overflow of prefixed integers: the low 64 bits are taken as two's complement (proved for every prefixed integer, with a concrete refutation)"},
{"property": "C27", "status": "proved", "theorems": ["C27_underscores", "C27_datetime_underscores_refuted"], "note": "for integers and floats; date-times accept a stray underscore (1_:30:00), shown as a refutation"},
{"property": "C28", "status": "proved", "theorems": ["C28_floats", "C28_capital_refuted"], "note": "iff, with the exact set of extra texts the code accepts (+Inf, -Inf, +Nan, -Nan); decimal value exact, binary rounding is the standard library's"},
{"property": "C29", "status": "proved", "theorems": ["C29_datetimes", "C29_valid_values"], "note": "seconds are limited to 59 (no leap second)"},
{"property": "C30", "status": "partial", "theorems": ["C30_strict_accepted", "C30_accepted_strict_partial", "C30_trailing_text_refuted", "C30_underscore_year_refuted"], "note": "refuted in full: text after an offset and underscores in year/hour are accepted; exact accepted set proved in C29_datetimes"},
{"property": "C31", "status": "partial", "theorems": ["C31_no_panic_partial", "C31_text_partial", "C31_simple_documents", "C31_header_refuted"], "note": "Every document is parsed without a panic (slices, index, subtraction and recursion depth included) unless a string spanning lines stands between the brackets of a header; on such a header the code does panic (C31_header_refuted: subtraction overflow in a debug build). At the level of the text (C31_text_partial): only where a `[` is followed by triple quotes, a line break and a `]`. TOML documents never panic (C34_toml_documents)."},
{"property": "C32", "status": "proved", "theorems": ["C32_nesting_limit", "C31_no_panic_partial", "C34_toml_documents"], "note": "A document that follows the grammar is accepted exactly if arrays and inline tables nest at most 100 deep (99 in the body of a table). The model's parse_value may nest 101 calls and panics otherwise; C31_no_panic_partial says that never happens."},
{"property": "C33", "status": "proved", "theorems": ["C33_every_comment", "C33_no_comment_invented", "C33_lost_comment_refuted"], "note": "Exactly once for all documents without errors; for others nothing is invented, repeated or reordered, but a comment can be lost (C33_lost_comment_refuted)."},
{"property": "C34", "status": "proved", "theorems": ["C34_accepted_documents", "C34_toml_documents", "C34_unambiguous"], "note": "Soundness, completeness and unambiguity against the grammar of ParseSpec.v (LitSpec for scalars, LexSpec for strings)."},
{"property": "C35", "status": "proved", "theorems": ["C35_mapping_total", "C35_references"], "note": "For every text that the parser does not panic on (C31): the map is built without panic, and every definition index, array element parent and inline array parent stored in it leads to a key the document spells like that place."},
{"property": "C36", "status": "proved", "theorems": ["C36_contents"], "note": "Contents at every place are exactly those declared (MapSpec.declared), with key order and array lengths."},
{"property": "C37", "status": "proved", "theorems": ["C37_conflicts", "C37_first_wins", "C37_array_header_refuted"], "note": "Errors are reported iff two declarations of one place clash (MapSpec.clash); values already there stay. C37_array_header_refuted: one TOML rule the code does not enforce; clash describes the code there."},
{"property": "C38", "status": "proved", "theorems": ["C38_only_adds"], "note": "For every prefix of the statements: errors are a prefix, and everything at every place stays, tables growing at the end."},
{"property": "C39", "status": "proved", "theorems": ["C39_dependencies", "C39_one_reading", "C39_nothing_left_out"], "note": "About the map of any text (`manifest input m`, also when errors were reported); places and readings are specified in IdeSpec.v over node_at of MapSpec.v."},
{"property": "C40", "status": "proved", "theorems": ["C40_git_registry", "C40_git_path", "C40_git_references", "C40_reference_without_git", "C40_workspace_key", "C40_workspace_false", "C40_no_other_conflicts"], "note": "The git/path conflict is reported with the kind for git/registry, as the code does."},
{"property": "C41", "status": "proved", "theorems": ["C41_layout", "C41_ascii_names", "C41_panics", "C41_distinct", "C41_case_refuted"], "note": "Other registries are todo!() in the code and panic in the model. C41_case_refuted: names are not lower-cased as the index layout requires."},
{"property": "C42", "status": "proved", "theorems": ["C42_versions", "C42_errors", "C42_merge_refuted"], "note": "JSON decoding of a line is an argument with the hypothesis that decoded maps have distinct keys. C42_merge_refuted: members are lost when a feature is in both maps."},
{"property": "C43", "status": "proved", "theorems": ["C43_total_order", "C43_order", "C43_kinds"], "note": ""},
{"property": "C44", "status": "proved", "theorems": ["C44_lines"], "note": ""},
{"property": "C45", "status": "proved", "theorems": ["C45_no_control_characters", "C45_printable_unchanged", "C45_control_characters_named"], "note": ""},
{"property": "C46", "status": "proved", "theorems": ["C46_literal_errors"], "note": "per error kind, what the literal is before, at and after the marked characters (LitSpec.lit_says: before_part/in_part/after_digit for numbers, word_read for keywords, dt_before/dt_within/dt_range for dates); quirks stated there: an empty exponent is reported as float overflow, three digits before a colon as an incomplete hour, an underscore directly after a sign as an unexpected character"},
{"property": "C47", "status": "proved", "theorems": ["C47_booleans"], "note": ""},
{"property": "C48", "status": "partial", "theorems": ["C48_error_spans_partial", "C48_comment_span_refuted"], "note": "all errors but InvalidCommentChar, which is marked one character early (exact behaviour in the theorem, refuted lemma)"},
{"property": "C49", "status": "partial", "theorems": ["C49_text_span_partial", "C49_stored_offsets", "C49_malformed_strings", "C49_trimmed_start_refuted"], "note": "end always right; start right unless a line break was trimmed and the literal is not in column 0 (exact behaviour in the theorem)"},
{"property": "C50", "status": "proved", "theorems": ["C50_places"], "note": "Spans of header brackets as distance from the opening bracket are correct except in documents with a string spanning lines inside header brackets (stated in r_off_ok)."},
{"property": "C51", "status": "proved", "theorems": ["C51_error_spans", "C51_comment_char_refuted"], "note": "exact positions (prefixes of the document) and, per error kind, what the marked text is (ParsePlace.parse_says); the exception for comment characters is stated and shown to be real"},
{"property": "C52", "status": "proved", "theorems": ["C52_statement_comments", "C52_associated_block"], "note": "For documents without errors: C52_statement_comments says it of the tree, whatever comes before and after the statement; C52_associated_block of the splitting function alone."},
{"property": "C53", "status": "proved", "theorems": ["C53_messages", "C53_error_places"], "note": "map_err_ok includes that the kind of message is right: MapSpec.reason names the earlier key that stands for an inline table, inline array, header table or array of headers, and says what the later key is"},
{"property": "C54", "status": "proved", "theorems": ["C54_check_panics", "C54_only_on_overflow", "C54_release_total"], "note": "C54_check_panics says exactly when; C54_only_on_overflow connects to C15."},
{"property": "C55", "status": "proved", "theorems": ["C55_exact_diagnostics"], "note": "`problem` of IdeSpec.v lists the problems; set equality (order and repetition are not specified)."},
{"property": "C56", "status": "proved", "theorems": ["C56_display_panics", "C56_positions_on_lines"], "note": "Under the hypothesis that a span's lines are in order and the context lines ascend (map errors: C53). The CRLF exception is what the second theorem states exactly."},
{"property": "C57", "status": "proved", "theorems": ["C57_display_text", "C57_display_unique"], "note": "Relation `displayed` of DisplaySpec.v; the message texts are data."},
{"property": "C58", "status": "proved", "theorems": ["C58_underline_aligned", "C58_no_control_characters"], "note": "The width function is a parameter; the terminal is described by `unescaped` and a width per character."},
{"property": "C59", "status": "proved", "theorems": ["C59_document_order", "C59_no_overlap"], "note": "The list of spans `doc_marks` is defined in ParseMarks.v on the tree alone."},
{"property": "C60", "status": "proved", "theorems": ["C60_manifest_places", "C60_multiline_refuted", "C60_escape_refuted"], "note": "For requirements with escapes or in a multi-line string the marks are off in the code: refuted by examples; the theorem states what holds of these (position relative to the start of the string)."},
{"property": "C61", "status": "proved", "theorems": ["C61_tool_fails", "C61_validate_succeeds", "C61_check_succeeds", "C61_crashes_refuted"], "note": "Exact crash condition; C61_crashes_refuted shows three small texts on which the tool crashes."},
{"property": "C62", "status": "proved", "theorems": ["C62_messages"], "note": "Non-trivial case: C62_example."},
{"property": "C63", "status": "proved", "theorems": ["C63_no_control_characters"], "note": ""},
{"property": "C64", "status": "proved", "theorems": ["C64_meaning"], "note": "`conflict` has the quirk of C37_array_header_refuted. Conflicting documents: C64_example."},
{"property": "C65", "status": "proved", "theorems": ["C65_silent_exactly_on_valid_toml"], "note": "Non-trivial case: C65_example."},
{"property": "C66", "status": "proved", "theorems": ["C66_same_diagnostics", "C66_places", "C66_past_end_refuted"], "note": "C66_past_end_refuted: a diagnostic can end on a line the buffer does not have."},
{"property": "C67", "status": "proved", "theorems": ["C67_crate", "C67_errors", "C67_good", "C67_outcomes", "C67_name_refuted", "C67_example"], "note": "The text of JSON, the HTTP request and the acceptance of addresses are arguments of the model."},
{"property": "C68", "status": "proved", "theorems": ["C68_version_roundtrip", "C68_requirement_roundtrip", "C68_version_read", "C68_version_wf", "C68_requirement_read", "C68_messages"], "note": ""},
{"property": "C69", "status": "proved", "theorems": ["C69_lines", "C69_lines_any_build", "C69_panics", "C69_example", "C69_rust_version_refuted", "C69_escapes_refuted"], "note": "JSON text is read by an argument of the model; values, duplicates, escapes and order are modelled."},
{"property": "C70", "status": "proved", "theorems": ["C70_parse_messages", "C70_key_messages", "C70_version_messages", "C70_names_refuted", "C70_manifest_messages"], "note": "MsgSpec.message / MsgSpec2.key_message, version_message, manifest_says list every text next to the condition on the document under which it is right; the texts are written a second time there, not taken from the model. Which diagnostics are reported is C55 (manifests) and C37 (keys)."},
{"property": "C71", "status": "proved", "theorems": ["C71_arguments", "C71_exclusive", "C71_usage", "C71_unreadable", "C71_report", "C71_garbled", "C71_exit_code", "C71_errors_in_exit_code_refuted"], "note": "the file system, the clock and the {:#?} of the value are parameters; Path::file_name is modelled for unix"},
{"property": "C72", "status": "proved", "theorems": ["C72_no_fault", "C72_reads", "C72_memory", "C72_creates", "C72_parse_with_refuted"], "note": "histories over a memory of arenas, buffers and containers; references are numbers of what they point into (ContainerModel.v). The hypothesis `honest` excludes exactly the misuse of parse_with that C72_parse_with_refuted shows"},
{"property": "C73", "status": "partial", "theorems": ["C73_marked_block_partial", "C52_array_comment_refuted", "C73_nested_refuted"], "note": "The claim is false: the value gets no comments if the block above it is all that has been stored so far (C52_array_comment_refuted), or if it is an array with comments inside (C73_nested_refuted). C73_marked_block_partial says exactly what the function that does this marks and returns; a statement about every array of a document is missing."},
{"property": "C74", "status": "proved", "theorems": ["C74_dependencies", "C74_documents", "C74_one_reading", "C74_order", "C74_names_once", "C74_crate"], "note": "Over the value printed by ctoml (C64); the requirement of a dependency is that of the grammar of C07. The order is that of the entries of the value (for the default feature indexmap). C74_crate: the crate a dependency is about is the one named by `package`, otherwise the name of its entry."},
{"property": "C75", "status": "proved", "theorems": ["C75_check", "C75_silent_exactly_on_fine_manifests", "C75_release_refuted"], "note": "C75_release_refuted: in release builds a requirement with a number that is out of range may pass (see C05)."},
{"property": "C76", "status": "proved", "theorems": ["C76_values", "C76_output", "C76_dependency", "C76_statements", "C76_says", "C76_appended"], "note": "PropPre.v. C76_values: the value of complete, conflict-free lines stays in the value of the document, whatever follows; C76_output: the same in terms of the printed output of the command line tool (proved from C65); C76_dependency: string dependencies stay declared; C76_statements/C76_says: statements first and in order; C76_appended: concatenation of documents. C76_example meets the hypotheses with a malformed continuation; C76_incomplete_refuted shows that the complete lines are needed. Hypothesis: reading the longer text does not fail (C31 says when it does)."},
{"property": "C77", "status": "proved", "theorems": ["C77_syntax", "C77_meaning", "C77_silent", "C77_unfinished_refuted"], "note": "PropLow.v. C77_syntax: errors of lexer and parser, with hint and context lines (via toml_diag, the model of the Diagnostic impl); C77_meaning: errors of the mapping, main span (hypothesis: the lines do not contradict themselves); C77_silent: both, with the hypothesis that reading the lines alone reports nothing. newlines counts line feeds. C77_example has a continuation with an error of each kind, and a hint above; C77_unfinished_refuted shows that the lines have to be a document of their own. Hypothesis: reading the longer text does not fail (C31)."},
{"property": "C78", "status": "proved", "theorems": ["C78_documents", "C78_output", "C78_manifest", "C78_dependencies", "C78_accepted", "C78_crlf", "C78_errors_refuted", "C78_other_returns_refuted"], "note": "relined: the same characters, each line break LF or CR LF in either, no other CR. C78_crlf: replacing every LF by CR LF is such a change. The two refutations show why documents with findings and other carriage returns are excluded."},
{"property": "C79", "status": "proved", "theorems": ["C79_split", "C79_lines", "C79_indented", "C79_line_end", "C79_documents", "C79_output", "C79_manifest", "C79_dependencies", "C79_inside_refuted"], "note": "layout_edit lists the changes, reformatted any number of them in either direction. That a place is between lines is said by requiring that the text above it is a document of its own."},
{"property": "C80", "status": "proved", "theorems": ["C80_gaps", "C80_blanks", "C80_documents", "C80_output", "C80_manifest", "C80_dependencies", "C80_elsewhere_refuted"], "note": "A change is given by the pieces before and after it and two ways to fill what is between; `fits` says what may stand there, reading the open brackets from the left."},
{"property": "C81", "status": "proved", "theorems": ["C81_determined", "C81_no_floats", "C81_alike_printed", "C81_no_control", "C81_runs", "C81_example", "C81_distinguishes"], "note": "Which characters `escape_debug` shows as they are and how `f64` is formatted (`float_text`) are parameters; `plain_float_ok` and `ascii_shown_ok` are an instance. `core::fmt`'s builders and escapes are modelled (`DebugModel`)."},
{"property": "C82", "status": "proved", "theorems": ["C82_document", "C82_read_back", "C82_injective", "C82_example", "C82_too_deep"], "note": "Floats are exact decimals in the model (rounding to f64 is the standard library's); the writer is part of the specification (`WriteSpec`), not of the code."},
{"property": "C83", "status": "proved", "theorems": ["C83_any_line", "C83_line", "C83_array_refuted", "C83_depth_refuted", "C83_string_refuted"], "note": "C83_any_line is about any text on the line; C83_line is about lines given by their (lexically valid) pieces, which may contain triple-quoted strings and brackets in strings. Both are for runs that do not panic (C30, C31). The hypotheses are needed: an array on the line goes on below (C83_array_refuted), a hundred opening braces in a table make the parser give up on the rest of the document (C83_depth_refuted, a defect: the diagnostics of everything below are lost), an unclosed multi-line string takes what is below (C83_string_refuted)."},
{"property": "C84", "status": "proved", "theorems": ["C84_key", "C84_conflicts", "C84_value", "C84_document", "C84_broken_line"], "note": "stmts_about (AboutStmts.v) is the specification of the statements that concern one key; C84_example is a text with a broken line in another section and a duplicated table in which the value of the key is still what is said."}
]}
