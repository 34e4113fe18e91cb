{
 "claims": [
  {
   "property": "C01",
   "status": "proved",
   "theorems": [
    "C01_lex_lossless"
   ],
   "note": ""
  },
  {
   "property": "C02",
   "status": "proved",
   "theorems": [
    "C02_lex_errors_are_invalid_tokens"
   ],
   "note": ""
  },
  {
   "property": "C03",
   "status": "proved",
   "theorems": [
    "C03_lex_positions"
   ],
   "note": "columns count characters, as the cursor does"
  },
  {
   "property": "C04",
   "status": "proved",
   "theorems": [
    "C04_scalar_lexed",
    "C04_scalar_lexed_anywhere"
   ],
   "note": "a local date followed by a space and a digit is excluded: it is read as the start of a date-time"
  },
  {
   "property": "C05",
   "status": "partial",
   "theorems": [
    "C05_number_tokens_refuted",
    "C05_number_tokens_partial",
    "C05_token_texts",
    "C05_booleans_and_dates"
   ],
   "note": "false of the code (0b|, 1:2, 1:e5, 1__0.5, 00.5, +0x1F are number tokens); proved for texts without these defects"
  },
  {
   "property": "C06",
   "status": "partial",
   "theorems": [
    "C06_parse_lossless_partial",
    "C06_parse_lossless_refuted"
   ],
   "note": "The claim is false in general: the parser panics when a float key with a decimal point follows blanks at the start of the text or after another such float. For every other text the parser is proved to end without panic and its tree to have exactly the source text."
  },
  {
   "property": "C07",
   "status": "partial",
   "theorems": [
    "C07_recursion_bounded",
    "C07_nesting_bounded_partial",
    "C07_too_deep_reported"
   ],
   "note": "The recursion bound holds for every text, and every text in which more than 128 brackets and braces are open somewhere gets an error. The bound on the nesting of the tree is proved for the texts of C06 (others may panic)."
  },
  {
   "property": "C08",
   "status": "partial",
   "theorems": [
    "C08_basic_strings",
    "C08_literal_strings",
    "C08_keys",
    "C08_ml_literal_tokens",
    "C08_ml_literal_partial",
    "C08_ml_literal_refuted",
    "C08_ml_basic_partial",
    "C08_ml_basic_refuted"
   ],
   "note": "proved in full for keys, basic and literal strings; for multi-line strings the full statement is false of the code (leading CRLF kept, all leading line feeds dropped, body ending in an escaped backslash not closed, Unicode spaces trimmed) and is proved outside these cases"
  },
  {
   "property": "C09",
   "status": "partial",
   "theorems": [
    "C09_basic_string_partial",
    "C09_basic_string_is_toml_partial",
    "C09_key_partial",
    "C09_literal_string_partial",
    "C09_ml_literal_string_partial",
    "C09_ml_basic_string_partial",
    "C09_round_trip_refuted"
   ],
   "note": "false for NUL, BEL, VT (and ESC in v1.0.0), for keys of the form ${...} and for multi-line texts starting with a line feed; for basic strings the exact set of texts that round-trip is proved"
  },
  {
   "property": "C10",
   "status": "proved",
   "theorems": [
    "C10_print_parse",
    "C10_parse_exact",
    "C10_parse_valid"
   ],
   "note": "All four types; spec in DateTimeSpec.v."
  },
  {
   "property": "C11",
   "status": "proved",
   "theorems": [
    "C11_total_preorder",
    "C11_equal_is_interchangeable"
   ],
   "note": "All texts, unbounded."
  },
  {
   "property": "C12",
   "status": "proved",
   "theorems": [
    "C12_integer_literals",
    "C12_integer_tokens",
    "C12_every_integer_has_a_value"
   ],
   "note": "both directions: every TOML integer literal, and every integer token the lexer makes"
  },
  {
   "property": "C13",
   "status": "proved",
   "theorems": [
    "C13_requoting",
    "C13_style_applied"
   ],
   "note": "One-line string tokens of any source; every quote style; value, one-token relexing, idempotence. Multi-line strings are never requoted by the code."
  },
  {
   "property": "C14",
   "status": "partial",
   "theorems": [
    "C14_text_kept",
    "C14_is_one_comment",
    "C14_idempotent",
    "C14_directives_partial"
   ],
   "note": "Plain comments and #:schema fully; tombi directives under hypotheses on the formatter of their content (a document formatted by the formatter itself)."
  },
  {
   "property": "C15",
   "status": "proved",
   "theorems": [
    "C15_delimiter",
    "C15_relexed"
   ],
   "note": "Same value or same error, idempotent, no panic, same kind when lexed again."
  },
  {
   "property": "C16",
   "status": "partial",
   "theorems": [
    "C16_keys_kept",
    "C16_headers_kept_partial",
    "C16_same_path_in_order_partial"
   ],
   "note": "Proved in full for the entries of tables and inline tables (paths of keys). For table headers, whose paths go through arrays of tables, under the hypothesis that the document has an element for every index; that header paths meet it is not proved."
  },
  {
   "property": "C17",
   "status": "partial",
   "theorems": [
    "C17_values_kept",
    "C17_groups_values_kept",
    "C17_in_order",
    "C17_scalars_are_sorted",
    "C17_mixed_left_alone",
    "C17_stable_partial",
    "C17_idempotent_partial",
    "C17_descending_stable_refuted",
    "C17_instants_refuted",
    "C17_commas"
   ],
   "note": "Permutation, order and commas proved. Stability and idempotence hold for ascending and version order; descending reverses equal keys, which is refuted. Date-times with an offset are ordered by text, not by instant (refuted). Comments are C44."
  },
  {
   "property": "C18",
   "status": "partial",
   "theorems": [
    "C18_edit_reproduces_partial",
    "C18_lone_cr_refuted"
   ],
   "note": "Proved for every old document without lone carriage returns, any new text and UTF-8/16/32; refuted with a lone carriage return (the protocol ends a line there, the server does not)"
  },
  {
   "property": "C19",
   "status": "partial",
   "theorems": [
    "C19_positions_partial",
    "C19_lines",
    "C19_monotone",
    "C19_rounding",
    "C19_lexer_ranges_refuted"
   ],
   "note": "Round trip, monotonicity and rounding for every document; same place in the text for documents without lone carriage returns; refuted for the ranges of the lexer, which count characters instead of clusters"
  },
  {
   "property": "C20",
   "status": "proved",
   "theorems": [
    "C20_semantic_tokens"
   ],
   "note": "For every list of tokens and directive comments that occur in order in the text, in every encoding; also the lengths of single-line tokens"
  },
  {
   "property": "C21",
   "status": "proved",
   "theorems": [
    "C21_measures",
    "C21_offsets",
    "C21_edits"
   ],
   "note": "u32 lengths are unbounded in the model."
  },
  {
   "property": "C22",
   "status": "proved",
   "theorems": [
    "C22_transparent"
   ],
   "note": "Compared with the builder of ParserModel, for every hash function, table and allocator."
  },
  {
   "property": "C23",
   "status": "partial",
   "theorems": [
    "C23_values",
    "C23_key_values",
    "C23_valid_partial",
    "C23_invalid_partial",
    "C23_tables",
    "C23_grouped_arrays",
    "C23_plain_arrays",
    "C23_nothing_lost",
    "C23_no_panic",
    "C23_valid_rejected_refuted",
    "C23_wrong_data_refuted",
    "C23_dotted_accepted_refuted",
    "C23_inline_accepted_refuted"
   ],
   "note": "Exact for values, inline tables and documents without headers. Valid documents are accepted with the data TOML defines whenever every header is told about the arrays of tables on its path (all documents without [[..]], all with grouped one-key arrays, all in which no header goes through an array); forbidden documents get an error under the same condition and when no table reaches into earlier subtables. The full property is false: four refutations. Without any condition: no panic, and no scalar is lost when no error is reported."
  },
  {
   "property": "C24",
   "status": "partial",
   "theorems": [
    "C24_selected",
    "C24_base_dir",
    "C24_format_options",
    "C24_lint_options",
    "C24_no_overrides",
    "C24_merged_fields",
    "C24_override_wins_refuted",
    "C24_walk",
    "C24_walk_agrees_partial",
    "C24_empty_include_refuted",
    "C24_named_file",
    "C24_named_file_missed_refuted"
   ],
   "note": "Selection and the choice of the override are proved for every pattern-matching function. \"Merged over the base\" is false: a field set by the base keeps its value. Command line and editor agree except for an empty include list and for relative names."
  },
  {
   "property": "C25",
   "status": "partial",
   "theorems": [
    "C25_not",
    "C25_if_then_else",
    "C25_all_of",
    "C25_any_of_partial",
    "C25_one_of_partial",
    "C25_one_of_never_panics",
    "C25_nested",
    "C25_any_of_refuted",
    "C25_one_of_refuted",
    "C25_all_of_cycle_refuted"
   ],
   "note": "not, if/then/else and allOf are exact for every list of subschema verdicts; anyOf and oneOf are exact when some member is not the null schema (and, for oneOf, when no adjacent not/if fails); C25_nested composes them over schemas of any depth. The refuted theorems exhibit the code deviating: null-only members, a failing adjacent keyword beside a warning-only oneOf match, and allOf on a schema cycle."
  },
  {
   "property": "C26",
   "status": "partial",
   "theorems": [
    "C26_integer",
    "C26_integer_reports",
    "C26_integer_panics",
    "C26_string",
    "C26_string_reports",
    "C26_never_panics_refuted",
    "C26_string_length_refuted"
   ],
   "note": "Integers and strings: every keyword decided exactly, and the diagnostics are exactly the violated keywords. The code panics exactly for multipleOf 0 and for multipleOf -1 on the least integer. String lengths count grapheme clusters, not characters. Array lengths are part of C40. Floats are not modelled."
  },
  {
   "property": "C27",
   "status": "partial",
   "theorems": [
    "C27_tables_partial",
    "C27_dotted_keys",
    "C27_escaped_key_refuted"
   ],
   "note": "Dotted keys: proved, compared by value. Tables: exactly the interrupted groups are reported, comparing the keys as written; two spellings of the same key are told apart, which refutes the full statement (C27_escaped_key_refuted)."
  },
  {
   "property": "C28",
   "status": "partial",
   "theorems": [
    "C28_document_converges_partial",
    "C28_document_converges_refuted"
   ],
   "note": "Proved for one session whose opening is stored before the first change arrives, with any schedule of changes, formatting, saving, disk reads and diagnostics. The full statement is false: a change arriving while the opening is under way is dropped, a change of an earlier session may overwrite the text after reopening, and changes after the file was deleted are dropped (three schedules)."
  },
  {
   "property": "C29",
   "status": "partial",
   "theorems": [
    "C29_json_lex_lossless",
    "C29_json_total",
    "C29_json_exact",
    "C29_json_rfc_partial",
    "C29_json_rfc_refuted",
    "C29_number_rounding",
    "C29_integer_exact_partial",
    "C29_integer_exact_refuted",
    "C29_display_partial",
    "C29_display_refuted"
   ],
   "note": "Lossless lexing, totality, the depth limit and the language that is read are proved (C29_json_exact, both directions). Not RFC 8259: a lone CR is rejected, a trailing comma and 00.5 are accepted. Integers above 2^53 are rounded and 1e999 becomes 0. Printing an object or a string with a quote does not give JSON."
  },
  {
   "property": "C30",
   "status": "partial",
   "theorems": [
    "C30_alignment_refuted",
    "C30_blank_lines_refuted"
   ],
   "note": "Refuted: with key_value_equal_alignment the width of a dotted key counts the blanks around its dots, and with table_blank_lines = 0 a lone comment becomes the comment of the next table; the second run gives another text. Idempotence for the other options is not proved."
  },
  {
   "property": "C31",
   "status": "partial",
   "theorems": [
    "C31_parsed_back",
    "C31_lexed_back",
    "C31_lexed_back_refuted",
    "C31_text_kept",
    "C31_text_spelled",
    "C31_readable",
    "C31_directives_one_line",
    "C31_content_kept",
    "C31_comments_end_lines",
    "C31_spelled"
   ],
   "note": "For every text that is read without errors, whose bare keys are those of TOML and where no float with a point stands after blanks from the start or from another such float, and all options: the formatted text is read without errors and the document read then has the same data, each key and value in its place (C31_parsed_back). Without that hypothesis on the keys the claim is false of the code (C31_lexed_back_refuted: +1 . a = 3 is formatted to +1.a = 3, which has an error). Comments: the pieces written are, but for blanks, line breaks and commas, the tokens and comments of the text in their order, each as a token or comment that says the same; directives may be reformatted but stay on their line; a line break follows every comment (C31_text_kept, C31_lexed_back). Missing: texts outside of the two hypotheses, and that a comment stays with the same key or value."
  },
  {
   "property": "C32",
   "status": "proved",
   "theorems": [
    "C32_array",
    "C32_inline_table",
    "C32_no_report",
    "C32_no_report_inline"
   ],
   "note": "For every array and inline table whose groups do not begin with a comma."
  },
  {
   "property": "C33",
   "status": "partial",
   "theorems": [
    "C33_array_order",
    "C33_order_by",
    "C33_table_order",
    "C33_severity",
    "C33_version",
    "C33_string_format",
    "C33_group_kind_refuted",
    "C33_group_kind_partial"
   ],
   "note": "All names round-trip except the kinds of key groups, whose printed title is never read back."
  },
  {
   "property": "C34",
   "status": "proved",
   "theorems": [
    "C34_order",
    "C34_ranges",
    "C34_spans",
    "C34_advance"
   ],
   "note": "u32 coordinates are unbounded numbers here; advancing over a concatenation is compositional at cluster boundaries of the segmentation (otherwise the number of clusters is not additive)"
  },
  {
   "property": "C35",
   "status": "partial",
   "theorems": [
    "C35_basic_partial",
    "C35_literal",
    "C35_basic_refuted"
   ],
   "note": "basic strings: all but \\u+, \\U+, \\x+ escapes, which the code accepts; literal strings: in full"
  },
  {
   "property": "C36",
   "status": "partial",
   "theorems": [
    "C36_float_tokens_partial",
    "C36_float_refuted",
    "C36_booleans"
   ],
   "note": "a zero integer part directly followed by an upper case exponent (0E5) is rejected by the code; every other float is covered"
  },
  {
   "property": "C37",
   "status": "partial",
   "theorems": [
    "C37_tokens_partial",
    "C37_tokens_refuted",
    "C37_toml_converts",
    "C37_dates_and_times"
   ],
   "note": "Exact for dates and times and complete for date-times. The full statement is false: a fraction without seconds (2024-01-01T00:00.5) is accepted under v1.1.0; the partial theorem excludes only that."
  },
  {
   "property": "C38",
   "status": "partial",
   "theorems": [
    "C38_numbers_by_value_partial",
    "C38_equal_texts_partial",
    "C38_separators_alike",
    "C38_large_numbers_refuted"
   ],
   "note": "True as long as the numbers fit 64 bits; a larger number ends the comparison, which refutes the full statement."
  },
  {
   "property": "C39",
   "status": "partial",
   "theorems": [
    "C39_date_partial",
    "C39_date_refuted",
    "C39_local_time_partial",
    "C39_time_partial",
    "C39_time_refuted",
    "C39_local_date_time_partial",
    "C39_date_time_partial",
    "C39_json_pointer",
    "C39_relative_exact",
    "C39_uri_reference_partial",
    "C39_uri_reference_refuted"
   ],
   "note": "JSON pointers are exact. Dates and times: every valid one is accepted, and nothing else unless a plus sign stands for a digit (refuted). URI references: exact description of what is accepted, soundness and completeness under stated conditions, both refuted in general. Email, hostname, UUID, IP, URI and regex formats call external crates and are not modelled."
  },
  {
   "property": "C40",
   "status": "partial",
   "theorems": [
    "C40_array_partial",
    "C40_array_reports",
    "C40_unevaluated_items_refuted"
   ],
   "note": "Every keyword exact, for arrays of any length, and a violated keyword is reported under its own name. Excluded: unevaluatedItems together with adjacent applicators, if/then/else or a boolean true rest schema, where the code deviates (refuted theorem)."
  },
  {
   "property": "C41",
   "status": "partial",
   "theorems": [
    "C41_table_partial",
    "C41_table_reports",
    "C41_unevaluated_properties_refuted"
   ],
   "note": "Every keyword exact, for tables with any keys, and a violated keyword is reported under its own name. Excluded: unevaluatedProperties together with dependencies, dependentRequired or dependentSchemas, where the code deviates (refuted theorem). The keys evaluated by adjacent applicators are taken as the code collects them."
  },
  {
   "property": "C42",
   "status": "partial",
   "theorems": [
    "C42_ordered_without_schema",
    "C42_ordered_with_schema_partial",
    "C42_schema_order",
    "C42_groups_others_stay",
    "C42_groups_sorted",
    "C42_groups_in_sequence",
    "C42_unknown_keys_placed",
    "C42_nested_partial",
    "C42_nested_quoted_refuted"
   ],
   "note": "A table under a key that needs quotes is not sorted by its schema (refuted). Schema and group order are proved for the keys of one table and one table below it."
  },
  {
   "property": "C44",
   "status": "partial",
   "theorems": [
    "C44_unsorted_comments_kept",
    "C44_comments_kept_partial",
    "C44_comment_lost_refuted",
    "C44_orders"
   ],
   "note": "A comment between the last-to-be value and its comma is deleted (refuted); proved for every other case."
  },
  {
   "property": "C45",
   "status": "proved",
   "theorems": [
    "C45_place",
    "C45_steps",
    "C45_walk",
    "C45_token_at"
   ],
   "note": "For every tree that can be built and every element reached by any chain of navigation steps: span and range are those of its text in the document, the steps lead to the parent, siblings and children they name, walks visit everything below once in document order, and the token search inside a node answers with exactly the tokens there and never panics."
  },
  {
   "property": "C46",
   "status": "partial",
   "theorems": [
    "C46_safe",
    "C46_coherent",
    "C46_quiet",
    "C46_detach",
    "C46_splice",
    "C46_offset",
    "C46_position_partial",
    "C46_position_refuted",
    "C46_ring_link",
    "C46_ring_add",
    "C46_ring_insert",
    "C46_ring_unlink",
    "C46_ring_adjust"
   ],
   "note": "Memory safety, coherence of every live handle, the effect of detach and splice and the offsets are proved for every allowed history. The line of a handle is right, its column is refuted. The pointer ring refines the sorted list."
  },
  {
   "property": "C47",
   "status": "partial",
   "theorems": [
    "C47_next_token_partial",
    "C47_next_token_refuted"
   ],
   "note": "Proved for trees in which every node has a child. Refuted in general: the tree of a document with a missing value has an empty node, and the tokens on both sides of it have no next and no previous token."
  },
  {
   "property": "C48",
   "status": "partial",
   "theorems": [
    "C48_diagnostics_label_partial",
    "C48_diagnostics_fresh_partial",
    "C48_diagnostics_settled_refuted"
   ],
   "note": "Labels and freshness proved for one session whose opening is stored before the first change. The settled part is false: diagnostics computed with the TOML version before an edit changed it can be cached after the cache was cleared, and are given out until the next edit."
  },
  {
   "property": "C49",
   "status": "partial",
   "theorems": [
    "C49_work_refuted"
   ],
   "note": "Refuted: for n nested arrays the formatter formats at least 2^n values, since every array is measured before it is formatted and measuring formats and measures again."
  },
  {
   "property": "C50",
   "status": "proved",
   "theorems": [
    "C50_own_lines",
    "C50_line_break_between"
   ],
   "note": "For every text that parses without error."
  },
  {
   "property": "C51",
   "status": "partial",
   "theorems": [
    "C51_accepted_partial",
    "C51_valid_toml_refuted"
   ],
   "note": "ParserAccepts.v gives the grammar over kinds of tokens and runs the parser over it; ParserAcceptsProps.v states the theorem. The grammar is a bit wider than TOML, as the parser is (commas between key/values of a table, missing commas in arrays). The last line may end with the text. Refuted: a comment on a line of its own and an empty line before a comma is valid TOML, but the parser reports it, so the grammar leaves it out. Missing: a float with a point behind a blank where a key may stand (the parser panics there, C06)."
  },
  {
   "property": "C52",
   "status": "partial",
   "theorems": [
    "C52_same_tree"
   ],
   "note": "Whatever the options: the formatted text has the same document tree and conflicts and the same TOML data as the source. Missing: texts outside the two conditions of C31_parsed_back (bare keys that TOML does not allow, where it is false; floats at places of keys), sorting by schemas and directives."
  },
  {
   "property": "C53",
   "status": "partial",
   "theorems": [
    "C53_tree_of_text",
    "C53_code",
    "C53_key_values",
    "C53_tables_partial",
    "C53_places",
    "C53_placed",
    "C53_tree_places_partial"
   ],
   "note": "Proved for texts: no panic, no value lost or duplicated, exact tree and errors without headers, exact tree for allowed texts without arrays of tables; in the data that the rules of TOML give, every value token is found, decoded, at the place it is written under (arrays of tables included). Missing: the tree with arrays of tables, where C23 refutes it."
  },
  {
   "property": "C54",
   "status": "partial",
   "theorems": [
    "C54_read_grammatical",
    "C54_exact_partial",
    "C54_others_reported",
    "C54_unbalanced_reported",
    "C54_only_toml_refuted"
   ],
   "note": "Every text read without errors is in the grammar of C51 (ParserSound.v), with no condition on the text; with C51 the texts read without errors are exactly those of the grammar, except for the texts on which the parser panics (C06). That the grammar is TOML is refuted: commas between the values of an array or inline table may be missing, and a comma may follow a key/value of a table."
  },
  {
   "property": "C55",
   "status": "partial",
   "theorems": [
    "C55_text_partial",
    "C55_round_trip_partial",
    "C55_values_partial",
    "C55_written_partial",
    "C55_backslash_refuted",
    "C55_panics_refuted",
    "C55_dotted_key_refuted",
    "C55_lists_refuted",
    "C55_floats_refuted",
    "C55_inline_root_refuted",
    "C55_mixed_refuted"
   ],
   "note": "Proved for values (C55_values_partial) and documents whose strings and keys need no escapes, whose floats are shown as floats, whose lists are not empty, and whose arrays of tables hold no tables with headers: whatever to_string returns has, by the rules of TOML and in the document tree of tombi, the data the value means. The full property is false: strings and keys are written without escapes (wrong data or a panic), empty lists and lists of lists are lost, 1.0 is written as 1, an inline root panics, a list that has a struct before a scalar panics (C55_mixed_refuted). That to_string returns for such values, where the indentation fits, is C55_written_partial."
  },
  {
   "property": "C56",
   "status": "partial",
   "theorems": [
    "C56_to_document_partial",
    "C56_root",
    "C56_variants_refuted"
   ],
   "note": "Exact for values without data-carrying enum variants and with integers below 2^63. False for the others: the name of a variant is lost, and a u64 of 2^63 or more becomes negative."
  },
  {
   "property": "C57",
   "status": "partial",
   "theorems": [
    "C57_no_panic_partial",
    "C57_indentation_refuted",
    "C57_directive_refuted"
   ],
   "note": "Proved for every text the parser answers for, with all options but the alignment of equals signs, when the indentation fits into a byte, and the same holds for the contents of its directives. Refuted: 128 nested arrays with the default options need 256 columns of indentation, computed in a byte (a panic where overflow is checked); a directive on whose content the parser panics."
  },
  {
   "property": "C58",
   "status": "partial",
   "theorems": [
    "C58_check",
    "C58_crash_partial",
    "C58_run",
    "C58_exit_code",
    "C58_ends",
    "C58_check_after_format",
    "C58_stdin_partial",
    "C58_crash_refuted",
    "C58_failure_refuted",
    "C58_twice_refuted",
    "C58_stdin_refuted"
   ],
   "note": "Proved for runs in which no file is named twice, by whatever paths: every interleaving, partial read and write. False: stopping the program between truncating and writing loses the text; the failure of the last write is not noticed and counted as success; a file named twice can lose lines although nothing fails; standard input that is switched off by an override gives no output. The formatter, the file system and the reads and writes of tokio are arguments or modelled as described in CliModel.v."
  },
  {
   "property": "C59",
   "status": "proved",
   "theorems": [
    "C59_lint_exit_code"
   ],
   "note": "The linter is an argument; that its tasks only read is read off the code."
  },
  {
   "property": "C60",
   "status": "partial",
   "theorems": [
    "C60_found_partial",
    "C60_only_partial",
    "C60_not_a_pointer",
    "C60_empty_token_refuted",
    "C60_index_refuted"
   ],
   "note": "Proved both ways for pointers without empty tokens; the second direction also excludes tokens that read as numbers but are no index. The code violates the rest: empty tokens are dropped (#/a//b is read as #/a/b, #/ is the whole document), +1 and 01 select array elements, and #a without its slash is taken as a pointer."
  },
  {
   "property": "C61",
   "status": "partial",
   "theorems": [
    "C61_chain_partial",
    "C61_reference_is_pointer",
    "C61_returns",
    "C61_pointer_partial",
    "C61_cycle_refuted",
    "C61_pointer_refuted",
    "C61_name_refuted"
   ],
   "note": "Proved for chains of references to definitions and anchors of any length, and for a reference to any other place of the document; resolution returns exactly when the references do not go round. The code violates the rest: circular references never return (also at load time for a root $ref), a reference to a place outside the definitions is followed for one step only and its title erases the description, and a definition whose name contains a slash takes a pointer away from what it denotes. Other documents, $dynamicRef and $recursiveRef are not modelled."
  },
  {
   "property": "C62",
   "status": "partial",
   "theorems": [
    "C62_project",
    "C62_outside",
    "C62_default",
    "C62_panics",
    "C62_panic_refuted"
   ],
   "note": "Proved for all file systems, contents and directories: which file is used at project level (an equivalence), which of the user and system files, when the default. Refuted part: the search panics, exactly when no project configuration is usable and the first existing user or system file cannot be read as a configuration (C62_panics). Not modelled: the places of macOS and Windows, relative starting paths."
  },
  {
   "property": "C63",
   "status": "partial",
   "theorems": [
    "C63_chosen",
    "C63_none",
    "C63_configured_partial",
    "C63_others_kept",
    "C63_schema_first",
    "C63_root_next",
    "C63_comment_decides",
    "C63_override_decides",
    "C63_schema_decides",
    "C63_unreadable_refuted"
   ],
   "note": "Proved for all overrides and paths. C63_configured_partial is for targets in the documented notation; a target that cannot be read is left out silently (C63_unreadable_refuted) and has no effect on the others (C63_others_kept). Not modelled: the rules that apply without any override (levels of the schema and of the configuration)."
  },
  {
   "property": "C64",
   "status": "partial",
   "theorems": [
    "C64_read",
    "C64_unambiguous",
    "C64_round_trip_partial",
    "C64_no_panic",
    "C64_lenient_refuted",
    "C64_round_trip_refuted"
   ],
   "note": "Proved: reading the whole documented notation, absence of panics for every text, and the round trip for keys that are not of the form ${...} with a dot or bracket and have no control character without a TOML 1.0 escape. Refuted: those keys are not read back, and some texts outside of the notation are accepted."
  },
  {
   "property": "C65",
   "status": "partial",
   "theorems": [
    "C65_none",
    "C65_root",
    "C65_sub",
    "C65_rules_partial",
    "C65_no_rules",
    "C65_version",
    "C65_level",
    "C65_directive",
    "C65_place",
    "C65_same_schema_refuted",
    "C65_version_refuted",
    "C65_directive_version_refuted",
    "C65_place_refuted"
   ],
   "note": "Which schema is used where, and how strictly, is proved for all lists of entries. Rules and overrides are those of the own entry when no two entries in use have the same schema (C65_rules_partial); otherwise the later entry wins for all (C65_same_schema_refuted). The code violates the rest: the version of an entry for a part of the document that comes first counts for all of it, a named schema is used with the version of the configured schema that it replaces, and an entry whose root cannot be read applies to the whole document. Whether an entry matches a path is a component of the entry (see the property on glob patterns); catalogs and associations made by the editor are entries like others."
  },
  {
   "property": "C66",
   "status": "partial",
   "theorems": [
    "C66_fresh_copy",
    "C66_refetch",
    "C66_fallback",
    "C66_nothing",
    "C66_no_cache",
    "C66_own",
    "C66_places_partial",
    "C66_shared_refuted",
    "C66_crash_refuted",
    "C66_garbage_refuted"
   ],
   "note": "Proved for all histories of writes, whole, refused or cut short, as long as no other address is kept in the same place (undisturbed); C66_places_partial shows that for ordinary addresses. The code violates the rest: addresses that differ only in port or query share a file, a refresh that stops in the middle of the write loses the copy that was there, and a reply that is no schema is saved over it. Not modelled: catalogs (the same code), clearing the cache, file systems that ignore case."
  },
  {
   "property": "C67",
   "status": "partial",
   "theorems": [
    "C67_current_partial",
    "C67_once",
    "C67_update",
    "C67_race_refuted",
    "C67_error_refuted",
    "C67_age_refuted"
   ],
   "note": "Proved for schemas in files that do not change in the middle of a request and whose changes show in time or length. A schema that was loaded is not loaded again while its file stays the same (C67_once). The code violates the rest: a file replaced while it is loaded is remembered with its old contents under its new version, a server that could not be reached once is not asked again, and a schema from a server is never fetched again while it is in memory. Not modelled: schemas loaded along with the one asked for."
  },
  {
   "property": "C68",
   "status": "partial",
   "theorems": [
    "C68_to_dotted_partial",
    "C68_to_inline_partial",
    "C68_quotes_refuted",
    "C68_several_refuted",
    "C68_reversed_refuted",
    "C68_shared_key_refuted",
    "C68_comments_kept",
    "C68_headers_kept"
   ],
   "note": "Proved at every place of every document without headers and errors: an inline table with one key/value becomes dotted keys, and dotted keys become an inline table when the key after the cursor table is bare and no other key/value goes into the same table. The code violates the rest: the key is written without the quotes it needs; with several key/values in the table the edits enclose other statements, or one ends before it begins; an inline table whose key/values share their first key is cut open. Not modelled: headers, and how the cursor is turned into a list of keys."
  },
  {
   "property": "C69",
   "status": "proved",
   "theorems": [
    "C69_exact",
    "C69_others_reported",
    "C69_later_versions",
    "C69_complete_walk",
    "C69_last_comma",
    "C69_last_comma_reported",
    "C69_missing_comma",
    "C69_missing_comma_reported",
    "C69_trailing_comma",
    "C69_trailing_comma_reported"
   ],
   "note": "Texts are given by the tokens of the tree the parser returns; LintGrammarSpec is the grammar of documents over kinds of tokens. The texts of literals and keys are checked elsewhere (C08, C12, C35-C37), tables defined twice too. C69_exact says when nothing is reported for a document; which reports there are is said per table, array and inline table, for missing commas, the last comma of inline tables and commas behind key/values. Not covered: the report about line breaks one by one, the lint.disabled directive, the choice of the version, the lines and columns of the reports, the two order rules (C27)."
  },
  {
   "property": "C70",
   "status": "partial",
   "theorems": [
    "C70_in_order",
    "C70_everything_partial",
    "C70_places",
    "C70_comma_refuted"
   ],
   "note": "C70_in_order says exactly what is handed to the builder, for every text read without errors, and C70_places that each stands at its place. The code violates the rest: a comment in a comma behind a key/value of a table is not highlighted (C70_comma_refuted); without such commas everything is (C70_everything_partial). Writing the tokens to the protocol is C20. The order is that of the sequence of kinds and texts; that places increase is not stated separately."
  }
 ]
}