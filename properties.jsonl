{"id": "C01", "title": "TOML lexing is lossless and total", "statement": "For every source text, lexing terminates without failing and yields a token sequence whose byte spans start at 0, are contiguous and end at the length of the source, so that the concatenation of the token texts is the source; every token except the final EOF covers at least one character.", "quantifier": "every source text, including invalid TOML and arbitrary Unicode", "why_tests_cant": "The lexer has a separate path for each kind of malformed literal and each one chooses how many characters to swallow; a lost or doubled character can appear in any of infinitely many malformed inputs.", "anchors": ["crates/tombi-lexer/src/lib.rs: lex, tokenize, Cursor::advance_token", "crates/tombi-lexer/src/cursor.rs: Cursor"]}
{"id": "C02", "title": "Every lexical error is reported exactly once and at its token", "statement": "For every source text, the errors returned by the lexer are in one-to-one, order-preserving correspondence with the INVALID_TOKEN tokens, with the same span and range.", "quantifier": "every source text", "why_tests_cant": "Tests look at chosen malformed literals, not at the pairing for every mixture of errors in one file.", "anchors": ["crates/tombi-lexer/src/lexed.rs: Lexed::push_result_token", "crates/tombi-lexer/src/lib.rs: lex"]}
{"id": "C03", "title": "Lexer positions agree with the source", "statement": "For every source text and every token, the start and end line/column reported for the token are those obtained by counting line feeds and characters in the source up to the token's start and end offsets.", "quantifier": "every source text and every token of it", "why_tests_cant": "Positions are updated incrementally per character along every lexing path; drift only shows up after particular character sequences.", "anchors": ["crates/tombi-lexer/src/cursor.rs: bump, pop_span_range", "crates/tombi-text/src/position.rs", "crates/tombi-text/src/relative_position.rs"]}
{"id": "C04", "title": "Valid TOML scalars are recognised by the lexer with the right kind", "statement": "For every text that is a TOML decimal, hexadecimal, octal or binary integer, a float, a boolean or a date-time according to the TOML grammar, lexing the text followed by a separator yields one token of that kind covering exactly the text.", "quantifier": "every scalar derivable from the TOML grammar and every following separator", "why_tests_cant": "The grammars are infinite regular languages and the implementation orders several overlapping regular expressions.", "anchors": ["crates/tombi-lexer/src/lib.rs: REGEX_*, number, date_time, time, is_number, is_date_time"]}
{"id": "C05", "title": "Only TOML scalars are accepted as number tokens", "statement": "Every number token produced by the lexer has a text that the TOML grammar derives for that kind.", "quantifier": "every source text and number token", "why_tests_cant": "It is a claim about the absence of wrong acceptances among all inputs.", "anchors": ["crates/tombi-lexer/src/lib.rs: REGEX_INTEGER_BIN, REGEX_FLOAT"]}
{"id": "C06", "title": "Parsing is total and the syntax tree is lossless", "statement": "For every source text, parsing returns a syntax tree (it neither loops nor panics) whose text is exactly the source text.", "quantifier": "every source text", "why_tests_cant": "Error recovery in the recursive-descent parser and the re-insertion of trivia must work for all token sequences.", "anchors": ["crates/tombi-parser/src/lib.rs: parse", "crates/tombi-parser/src/parser.rs", "crates/tombi-parser/src/builder.rs", "crates/tombi-parser/src/parse/*.rs"]}
{"id": "C07", "title": "Parser nesting is bounded", "statement": "For every source text, the recursion of the parser and the depth of the resulting value nesting stay within the documented limit, whatever the nesting of the source, and exceeding it is reported as an error.", "quantifier": "every source text", "why_tests_cant": "A stack overflow can be triggered by any of infinitely many deeply nested inputs.", "anchors": ["crates/tombi-parser/src/parse/value.rs: MAX_RECURSION_DEPTH, skip_too_deep_value"]}
{"id": "C08", "title": "String literals decode to the value TOML defines", "statement": "For every basic, literal, multi-line basic and multi-line literal string derivable from the TOML grammar, decoding succeeds and yields the sequence of characters the TOML specification defines.", "quantifier": "every string literal of the TOML grammar, in each supported TOML version", "why_tests_cant": "Escapes, line continuations and delimiters can be combined in arbitrary ways.", "anchors": ["crates/tombi-toml-text/src/lib.rs: try_from_basic_string, parse_basic_string, try_from_multi_line_basic_string, try_from_literal_string"]}
{"id": "C09", "title": "Encoding a text as a TOML string or key and decoding it returns the text", "statement": "For every text, encoding it as a TOML key or string and decoding the result with the matching decoder gives the original text.", "quantifier": "every text and TOML version", "why_tests_cant": "Round trips must hold for every character and combination of characters.", "anchors": ["crates/tombi-toml-text/src/lib.rs: to_basic_string, to_key_string, to_literal_string"]}
{"id": "C10", "title": "Date-times survive printing and parsing", "statement": "Every valid date, time, local date-time and offset date-time printed by the library parses back to the same value, and whatever parses is a calendar-valid date and time.", "quantifier": "every date-time value and every text", "why_tests_cant": "The value space (years, leap days, nanoseconds, offsets) is far too large to enumerate.", "anchors": ["crates/tombi-date-time/src/private.rs: DateTime FromStr/Display"]}
{"id": "C11", "title": "Version sort is a total preorder", "statement": "The version comparison used to sort keys and values is reflexive, antisymmetric (swapping the arguments reverses the answer) and transitive, which is what the standard library's sort requires not to panic or produce an arbitrary order.", "quantifier": "all pairs and triples of texts", "why_tests_cant": "Transitivity quantifies over all triples of strings.", "anchors": ["crates/tombi-version-sort/src/lib.rs: version_sort", "crates/tombi-ast-editor/src/rule/table_keys_order.rs"]}
{"id": "C12", "title": "Integer literals have their mathematical value", "statement": "For every integer literal token, conversion succeeds with the mathematical value of the literal if it fits in 64-bit two's complement, and is reported as an error otherwise.", "quantifier": "every integer literal of every base", "why_tests_cant": "Arbitrarily long literals with arbitrary underscores and both extremes of the range.", "anchors": ["crates/tombi-ast/src/support/literal/integer.rs"]}
{"id": "C13", "title": "Requoting strings preserves their value", "statement": "Whatever quote style is configured, the string literal written by the formatter decodes to the same value as the literal it replaces, and is lexed as a single string token.", "quantifier": "every valid string literal and quote style", "why_tests_cant": "The decision whether a literal can be requoted depends on its content.", "anchors": ["crates/tombi-formatter/src/format/value/string.rs: requote_string"]}
{"id": "C14", "title": "Comment formatting is idempotent and keeps the comment's text", "statement": "Formatting a comment twice gives the same text as formatting it once, the result is again a single comment, and apart from whitespace at its two ends after the marker the characters of the comment are unchanged.", "quantifier": "every comment", "why_tests_cant": "Comments are arbitrary text.", "anchors": ["crates/tombi-formatter/src/format/comment.rs"]}
{"id": "C15", "title": "Changing the date-time delimiter preserves the value", "statement": "For every date-time literal and every delimiter setting, the formatted literal denotes the same date-time, and formatting it again does not change it.", "quantifier": "every date-time literal and delimiter option", "why_tests_cant": "All literals.", "anchors": ["crates/tombi-formatter/src/format/value/{offset,local}_date_time.rs"]}
{"id": "C16", "title": "Sorting keys and tables never loses or duplicates an entry", "statement": "For every schema, sort order and table, the sorted key/value list is a permutation of the original list.", "quantifier": "every list of keyed entries, every schema and every order setting", "why_tests_cant": "Order settings are looked up recursively per sub-table with several fallbacks.", "anchors": ["crates/tombi-ast-editor/src/rule/table_keys_order.rs: get_sorted_accessors, sort_targets"]}
{"id": "C17", "title": "Array value sorting is a stable permutation", "statement": "Sorting an array's values yields a permutation of the values, ordered by key, equal keys keep their relative order, each value keeps the comments attached to it, and commas end up between all neighbouring values.", "quantifier": "every array and order setting", "why_tests_cant": "All arrays.", "anchors": ["crates/tombi-ast-editor/src/rule/array_values_order.rs", "crates/tombi-ast-editor/src/rule/array_values_order/*.rs"]}
{"id": "C18", "title": "The editor's formatting edit reproduces the formatted text", "statement": "Applying the text edit returned by the LSP formatting handler to the old document yields exactly the formatted document, for every supported position encoding.", "quantifier": "every pair of old and new texts and every position encoding", "why_tests_cant": "All pairs of texts; grapheme clusters, CRLF and surrogate pairs interact at the boundary of the common prefix and suffix.", "anchors": ["crates/tombi-lsp/src/handler/formatting.rs: compute_text_edits, position_at_offset", "crates/tombi-text/src/features/lsp.rs"]}
{"id": "C19", "title": "Positions sent to the editor denote the right place", "statement": "For every document and every position inside it, converting the position to the editor's encoding and back is the identity, conversion is monotone, and the converted position selects the same place in the text.", "quantifier": "every text, position and encoding", "why_tests_cant": "All texts and encodings.", "anchors": ["crates/tombi-text/src/features/lsp.rs: LineIndex, FromLsp, EncodingKind::measure"]}
{"id": "C20", "title": "Semantic tokens decode to absolute positions", "statement": "Decoding the relative token stream produced by the semantic-token builder per the LSP specification gives back the absolute start of every added token in order.", "quantifier": "every sequence of tokens in document order", "why_tests_cant": "Delta coding depends on the whole history of tokens added.", "anchors": ["crates/tombi-lsp/src/semantic_tokens/builder.rs"]}
{"id": "C21", "title": "Text edits on the green tree are exactly list edits", "statement": "For every node and child list operation (insert, remove, replace, splice), the text of the resulting node is the text obtained by the same edit on the list of child texts, text lengths are the sums of the children's, and child offsets are the prefix sums.", "quantifier": "every tree, operation and index", "why_tests_cant": "All trees.", "anchors": ["crates/tombi-rg-tree/src/green/node.rs", "crates/tombi-rg-tree/src/green/builder.rs"]}
{"id": "C22", "title": "Green node interning is transparent", "statement": "Building a tree with a shared cache, in any history of previous uses, yields a tree structurally equal to building it without a cache, provided equality is checked on hash collision.", "quantifier": "every sequence of builder calls and every prior cache history, for every hash function", "why_tests_cant": "Cache contents depend on the whole history; hash collisions are not reachable by tests.", "anchors": ["crates/tombi-rg-tree/src/green/node_cache.rs"]}
{"id": "C23", "title": "Redefinitions are reported exactly when TOML forbids them", "statement": "For every sequence of tables, arrays of tables and key/values, building the document reports a conflict if and only if the TOML specification forbids the sequence, and when there is none the document's tree is the one the specification defines.", "quantifier": "every document", "why_tests_cant": "Conflicts depend on the order and kinds of all previous definitions.", "anchors": ["crates/tombi-document-tree/src/value/table.rs: Table::merge, insert", "crates/tombi-document-tree/src/root.rs"]}
{"id": "C24", "title": "File selection: include, exclude and overrides", "statement": "A file is selected iff some include pattern matches and no exclude pattern matches, and its options come from the first matching override merged field by field over the base configuration; a disabled override turns processing off.", "quantifier": "every path, pattern list, override list and pattern-matching function", "why_tests_cant": "All combinations of overrides.", "anchors": ["crates/tombi-glob/src/file_match.rs", "crates/tombi-glob/src/lib.rs: get_format_options, get_lint_options", "crates/tombi-config/src/lib.rs: merge_format"]}
{"id": "C25", "title": "Boolean schema combinators follow JSON Schema", "statement": "Validation against oneOf, anyOf, allOf, not and if/then/else reports an assertion failure exactly when JSON Schema says the instance is invalid given the verdicts of the subschemas.", "quantifier": "every list of subschema verdicts", "why_tests_cant": "All numbers and combinations of subschema results, including those with only warnings.", "anchors": ["crates/tombi-validator/src/validate/{one_of,any_of,all_of,not_schema,if_then_else}.rs"]}
{"id": "C26", "title": "Numeric, string-length and array-length keywords follow JSON Schema", "statement": "For every value and schema bound, the keyword is reported as violated exactly when JSON Schema says so, and checking never panics.", "quantifier": "every value and bound", "why_tests_cant": "Boundary values of 64-bit integers, including the smallest, and zero divisors.", "anchors": ["crates/tombi-validator/src/validate/integer.rs", "crates/tombi-validator/src/validate.rs"]}
{"id": "C27", "title": "Out-of-order tables are reported exactly when a group is interrupted", "statement": "The linter reports a table as out of order iff another table with a different first key stands between two tables that share its first key; likewise for dotted keys.", "quantifier": "every sequence of table headers and key/values", "why_tests_cant": "All sequences.", "anchors": ["crates/tombi-linter/src/rule/tables_out_of_order.rs", "crates/tombi-linter/src/rule/dotted_keys_out_of_order.rs"]}
{"id": "C28", "title": "The language server's document converges to the editor's", "statement": "Whatever an editor sends within the protocol, and however the server's handlers interleave, the text the server holds is at every moment the one sent with the version it holds (or a formatting of it), and once all handlers have finished it is the editor's own version and text.", "quantifier": "every history of messages about a document and every schedule of the handlers at their await points", "why_tests_cant": "Depends on the interleaving at await points.", "anchors": ["crates/tombi-lsp/src/handler/did_change.rs", "crates/tombi-lsp/src/handler/did_open.rs", "crates/tombi-lsp/src/handler/did_close.rs", "crates/tombi-lsp/src/handler/did_save.rs", "crates/tombi-lsp/src/handler/formatting.rs", "crates/tombi-lsp/src/handler/did_change_watched_files.rs", "crates/tombi-lsp/src/workspace_diagnostic.rs"]}
{"id": "C29", "title": "JSON lexing and parsing", "statement": "For every source, JSON lexing is lossless and total, and every lexical error is at an invalid token. Parsing terminates with a value or an error, never nesting deeper than the limit; it accepts exactly the JSON texts (RFC 8259), each node has the value and the place its text has, numbers are read as the nearest double and integers exactly, and every JSON text printed from a value parses back to that value.", "quantifier": "every source text and every value", "why_tests_cant": "All inputs: equality of two infinite languages, and rounding of every decimal number.", "anchors": ["crates/tombi-json-lexer/src/lib.rs: tokenize", "crates/tombi-json/src/parser.rs: parse", "crates/tombi-json/src/node.rs: Display", "crates/tombi-json-value/src/number.rs: from_f64"]}
{"id": "C30", "title": "Formatting is idempotent", "statement": "Formatting the formatted text gives the same text.", "quantifier": "every document that formats without error and every option setting", "why_tests_cant": "All documents.", "anchors": ["crates/tombi-formatter/src/formatter.rs"]}
{"id": "C31", "title": "Formatting preserves the document", "statement": "If formatting succeeds, the output parses without error and denotes the same data, and keeps every comment.", "quantifier": "every document and option setting", "why_tests_cant": "All documents.", "anchors": ["crates/tombi-formatter/src/formatter.rs", "crates/tombi-formatter/src/format/**"]}
{"id": "C32", "title": "Arrays and inline tables have commas where needed", "statement": "The missing-comma rule reports an array or inline table exactly at each item that is not last and not followed by a comma, so a document without such report has a comma between every two neighbours.", "quantifier": "every array and inline table", "why_tests_cant": "All sequences of items and commas, including across comment groups.", "anchors": ["crates/tombi-linter/src/rule/missing_comma.rs", "crates/tombi-ast/src/support/iter.rs: WithCommaIter"]}
{"id": "C33", "title": "Names of options round-trip", "statement": "For every schema keyword value, severity and string format that has a textual name, parsing its printed name gives it back, and no two different ones share a printed name.", "quantifier": "every variant", "why_tests_cant": "A claim about all variants and all strings (no other string is accepted).", "anchors": ["crates/tombi-x-keyword/src/*.rs", "crates/tombi-severity-level/src/lib.rs"]}
{"id": "C34", "title": "Source spans and ranges form an interval algebra", "statement": "Joining ranges gives the smallest range containing both, containment and intersection agree with the set of positions covered, and advancing a position by a text is compositional over concatenation.", "quantifier": "every range, position and text", "why_tests_cant": "Algebraic laws over all values.", "anchors": ["crates/tombi-text/src/{range,span,position,relative_position}.rs"]}
{"id": "C35", "title": "Only TOML strings decode", "statement": "Every basic or literal string token that the library decodes without error is a string of the TOML grammar, and the decoded text is the one TOML defines for it.", "quantifier": "every source text, every string token in it and every TOML version", "why_tests_cant": "quantifies over all sources, including malformed strings no test author thinks of", "anchors": ["crates/tombi-toml-text/src/lib.rs: try_from_basic_string, parse_basic_string, parse_literal_string", "crates/tombi-lexer/src/lib.rs: basic_string, literal_string"]}
{"id": "C36", "title": "Float and boolean literals convert exactly when valid", "statement": "A float token converts successfully exactly when its text is a TOML float, and the value is the correctly rounded value of the text without its underscores; no float token makes the conversion panic; a boolean token converts to the truth value it spells.", "quantifier": "every document, every float or boolean token of it", "why_tests_cant": "The texts have unbounded length with arbitrary placement of underscores, zeros, dots and exponents.", "anchors": ["crates/tombi-ast/src/support/literal/float.rs", "crates/tombi-ast/src/support/literal/boolean.rs"]}
{"id": "C37", "title": "Date-time tokens convert exactly when they are date-times of the TOML version", "statement": "A date-time, date or time token has a value exactly when its text is valid TOML of the selected version (calendar-valid, seconds written unless v1.1.0), and the value is the one the text denotes.", "quantifier": "every source text, every token of it, every TOML version", "why_tests_cant": "Infinitely many token texts; the accepted ones depend on the interplay of lexer expression, rewriting of missing seconds and parser.", "anchors": ["crates/tombi-document-tree/src/support/chrono.rs: try_new_offset_date_time, try_new_local_date_time, try_new_local_date, try_new_local_time, make_datetime_str", "crates/tombi-date-time/src/private/date_time.rs"]}
{"id": "C38", "title": "Version sort orders numbers by value", "statement": "Where two texts first differ in a run of digits, the smaller number comes first whatever follows, and texts compare equal only if they are the same up to '_' against '-'.", "quantifier": "all pairs of texts", "why_tests_cant": "All pairs of texts, numbers of any size.", "anchors": ["crates/tombi-version-sort/src/lib.rs: version_sort, VersionChunkIter"]}
{"id": "C39", "title": "String formats accept exactly what their standards define", "statement": "With format checking on, a string is accepted for the formats date, time, date-time (RFC 3339), their local variants, json-pointer (RFC 6901) and uri-reference (RFC 3986) exactly when it is in the language that standard defines.", "quantifier": "every string", "why_tests_cant": "Equality of two infinite languages; tests sample only some members and non-members.", "anchors": ["crates/tombi-validator/src/validate/format/*.rs: validate_format"]}
{"id": "C40", "title": "Array keywords follow JSON Schema", "statement": "For every array and every array schema, an assertion failure is reported exactly when JSON Schema says the array is invalid: items, prefixItems, additionalItems, contains with its bounds, unevaluatedItems, minItems, maxItems, uniqueItems, const and enum, given the verdicts of the subschemas on the items.", "quantifier": "every array of any length and every array schema", "why_tests_cant": "Arrays, prefixes and sets of matching items of any length; every combination of the keywords.", "anchors": ["crates/tombi-validator/src/validate/array.rs: validate_array", "crates/tombi-schema-store/src/schema/array_schema.rs: ArraySchema"]}
{"id": "C41", "title": "Table keywords follow JSON Schema", "statement": "For every table and every table schema, an assertion failure is reported exactly when JSON Schema says the table is invalid: properties, patternProperties, additionalProperties, unevaluatedProperties, propertyNames, required, dependencies, dependentRequired, dependentSchemas, minProperties, maxProperties, const and enum, given the verdicts of the subschemas on the values.", "quantifier": "every table with any set of keys and every table schema", "why_tests_cant": "Any number of keys, each declared by any number of properties and patterns; every combination of the keywords.", "anchors": ["crates/tombi-validator/src/validate/table.rs: validate_table", "crates/tombi-schema-store/src/schema/table_schema.rs: TableSchema"]}
{"id": "C42", "title": "Keys end up in the order that was asked for", "statement": "After sorting, the keys of a table are in the order given by the setting that applies to it: ascending, descending or version order compares keys from the first dotted key that differs; schema order puts the schema's properties first in the schema's sequence and leaves the others as they were behind them; a list of groups puts the groups in sequence, each in its own order, and keys of no group keep their place. This holds for tables inside tables too.", "quantifier": "every table, every schema and every order setting", "why_tests_cant": "Order settings combine with dotted keys, groups, fallbacks and nesting without bound.", "anchors": ["crates/tombi-ast-editor/src/rule/table_keys_order.rs: get_sorted_accessors, sort_targets, sort_table_targets"]}
{"id": "C44", "title": "Sorting an array or inline table keeps every comment", "statement": "When the values of an array or the entries of an inline table are sorted and their commas rewritten, every comment is still in the result, and the comments written before and after a value stay with that value.", "quantifier": "every array and inline table, with comments in every place, and every resulting order", "why_tests_cant": "Edits are computed on the old tree and applied one after another, so they interact depending on where comments, commas and moved values are.", "anchors": ["crates/tombi-ast-editor/src/edit/array.rs", "crates/tombi-ast-editor/src/edit/inline_table.rs", "crates/tombi-ast-editor/src/rule/array_comma_trailing_comment.rs", "crates/tombi-ast-editor/src/rule/array_values_order.rs"]}
{"id": "C45", "title": "The syntax tree is navigated without losing the place", "statement": "For every tree and every node or token reached in it by any chain of navigation steps, its span and range are those of its text in the document; walking the tree visits every node and token once, in document order; the token at an offset or position is the one whose text is there, and asking for it never panics inside the node.", "quantifier": "every tree, every chain of navigation steps, every offset and position", "why_tests_cant": "All trees and all chains of steps.", "anchors": ["crates/tombi-rg-tree/src/cursor.rs: SyntaxNode, SyntaxToken, Preorder, token_at_offset, token_at_position"]}
{"id": "C46", "title": "Editing the tree through live handles", "statement": "After any sequence of edits through handles, every live handle still stands for the same part of the tree: its parent's child at its index is its own tree, the edited node's children are the edited list, all others are unchanged, and its span and range are those of its text.", "quantifier": "every history of navigation, detach, attach and drop of handles", "why_tests_cant": "Depends on which handles are alive when an edit happens.", "anchors": ["crates/tombi-rg-tree/src/cursor.rs: splice_children, detach, attach_child, respine", "crates/tombi-rg-tree/src/sll.rs"]}
{"id": "C47", "title": "The next and previous token are the neighbours in the document", "statement": "For every tree and every token in it, asking for the next (previous) token gives the token that follows (precedes) it in the document, and none only at the end (start).", "quantifier": "every tree and every token in it", "why_tests_cant": "All trees, including those of incomplete documents.", "anchors": ["crates/tombi-rg-tree/src/cursor.rs: SyntaxToken::next_token, prev_token, first_token, last_token"]}
{"id": "C48", "title": "Diagnostics are about the text they are labelled with, and not older than the request", "statement": "Diagnostics given out with a version were computed from the text sent with that version (or a formatting of it); a request is answered for a version no older than the one held when it arrived; and diagnostics asked for when all handlers have finished are those of the present text and TOML version.", "quantifier": "every history of messages about a document and every schedule of the handlers at their await points", "why_tests_cant": "Depends on the interleaving of edits, linting and the cache at await points.", "anchors": ["crates/tombi-lsp/src/diagnostic.rs", "crates/tombi-lsp/src/workspace_diagnostic/cache.rs", "crates/tombi-lsp/src/handler/did_change.rs"]}
{"id": "C49", "title": "Formatting takes polynomial work", "statement": "The number of values the formatter formats (including the measuring runs that decide whether a value fits on a line) is bounded by a polynomial in the length of the document.", "quantifier": "every document and option setting", "why_tests_cant": "Growth over all nesting depths; tests use shallow documents.", "anchors": ["crates/tombi-formatter/src/format/value/array.rs: exceeds_line_width, format", "crates/tombi-formatter/src/format/value/inline_table.rs: exceeds_line_width", "crates/tombi-formatter/src/formatter.rs: format_to_string"]}
{"id": "C50", "title": "Statements stand on their own lines", "statement": "In a text that parses without error, there is a line break between any two of: a key/value outside of braces, a group of comments that belong to nothing, a table header with what follows it on its line; two of them on one line are an error.", "quantifier": "every text that parses without error", "why_tests_cant": "All texts: the parser could accept two statements on a line in any combination of comments, commas, headers and nested values.", "anchors": ["crates/tombi-parser/src/parse/root.rs", "crates/tombi-parser/src/parse/table.rs", "crates/tombi-parser/src/parse/array_of_table.rs", "crates/tombi-parser/src/parse/key_value.rs"]}
{"id": "C51", "title": "Texts of the TOML grammar are parsed without errors", "statement": "A text that the lexer takes without errors and whose tokens follow the grammar of TOML - lines of comments and key/values, tables and arrays of tables with dotted keys, literals, arrays that may go over lines and hold comments, inline tables, values nested at most 128 deep - is parsed with no error at all, and the tree has the text. In particular the parser never reports valid TOML as invalid because of where comments, line breaks, blanks or trailing commas stand.", "quantifier": "every text whose tokens are derivable in the grammar, of any length, any stack limit above the recursion limit", "why_tests_cant": "there are unboundedly many derivations: every mix of nesting, comments at each place where one may stand, blank lines and commas", "anchors": ["crates/tombi-parser/src/parser.rs: Parser::parse, bump_float_key", "crates/tombi-parser/src/parse/root.rs", "crates/tombi-parser/src/parse/value.rs", "crates/tombi-parser/src/parse/key_value.rs", "crates/tombi-parser/src/parse/table.rs", "crates/tombi-parser/src/parse/array.rs", "crates/tombi-parser/src/parse/inline_table.rs"]}
{"id": "C52", "title": "Formatting does not change what the text means", "statement": "For a text that is read without errors, the text that the formatter writes has the same document tree: the same keys in the same tables, the same decoded values, the same reported conflicts between keys; and the rules of TOML give both texts the same data, or forbid both.", "quantifier": "every text, every set of formatting options, every version of TOML, every assignment of values to the texts of floats", "why_tests_cant": "the property couples the formatter, lexer, parser and tree builder on unboundedly many texts; a sample shows nothing about the next text", "anchors": ["crates/tombi-formatter/src/formatter.rs: Formatter::format", "crates/tombi-document-tree/src/root.rs: IntoDocumentTreeAndErrors", "crates/tombi-document-tree/src/value.rs", "crates/tombi-document-tree/src/key.rs", "crates/tombi-parser/src/lib.rs: parse"]}
{"id": "C53", "title": "The document tree of a text holds its values", "statement": "For every text that is parsed without errors and whose tokens have values, building the document tree does not panic; when no conflict is reported the tree holds the decoded value of every value token, as often as it is written, and nothing else; without headers the tree is exactly what TOML's rules say, and an error is reported exactly where they forbid the text.", "quantifier": "every text of any length and nesting, every version of TOML", "why_tests_cant": "values can be lost or duplicated in merges that depend on the whole history of keys and headers of the text", "anchors": ["crates/tombi-document-tree/src/root.rs", "crates/tombi-document-tree/src/value/table.rs: Table::insert, merge", "crates/tombi-document-tree/src/value/array.rs", "crates/tombi-document-tree/src/key.rs", "crates/tombi-ast/src/impls"]}
{"id": "C54", "title": "Only texts of the grammar are parsed without errors", "statement": "A text that is parsed with no error at all is made of lines of comments and key/values followed by tables and arrays of tables, with dotted keys, literals, arrays and inline tables nested at most 128 deep, every bracket and brace closed by its own kind, every key/value with an equal sign and a value and at the end of its line: a text outside this grammar always gets at least one error. The parser accepts nothing but TOML.", "quantifier": "every source text and every stack limit for which the parser ends with a tree", "why_tests_cant": "every one of infinitely many malformed texts must be reported; a test shows only that some are", "anchors": ["crates/tombi-parser/src/parser.rs: Parser::parse", "crates/tombi-parser/src/parse/root.rs", "crates/tombi-parser/src/parse/value.rs", "crates/tombi-parser/src/parse/key_value.rs", "crates/tombi-parser/src/parse/key_value_group.rs", "crates/tombi-parser/src/parse/table.rs", "crates/tombi-parser/src/parse/array.rs", "crates/tombi-parser/src/parse/inline_table.rs"]}
{"id": "C55", "title": "Serialized text reads back as the value", "statement": "When serde_tombi::to_string succeeds for a Rust value, the text it returns is valid TOML and reading it gives the value back: the same keys, the same nesting, the same scalars (only the order of keys may differ); and it never panics.", "quantifier": "every value of serde's data model, of any size and nesting; every formatter configuration", "why_tests_cant": "the text depends on every string, key, number and combination of tables, lists and options in the value; tests only try a few shapes", "anchors": ["rust/serde_tombi/src/ser.rs: to_string, to_string_async, Serializer", "rust/serde_tombi/src/document.rs: ToTomlString", "crates/tombi-document/src/key.rs", "crates/tombi-formatter/src/formatter.rs: Formatter::format"]}
{"id": "C56", "title": "The document made of a value says what the value says", "statement": "serde_tombi::to_document turns a value that serde describes as a map or struct into a document with the same fields in the same order and the same contents, leaving out exactly the fields that are None; a root that is not a table is an error; enum variants are externally tagged as serde's default and as the deserializer of tombi expects.", "quantifier": "every value of serde's data model", "why_tests_cant": "values are unboundedly large and nested, and each kind of value can occur inside each other kind", "anchors": ["rust/serde_tombi/src/ser.rs: to_document, ValueSerializer, SerializeArray, SerializeTable, DateTimeSerializer, TransformInline", "crates/tombi-document/src/value/table.rs"]}
{"id": "C57", "title": "Formatting does not crash", "statement": "For every text and all options, formatting returns: a text with syntax errors is reported and left alone, any other is formatted; the formatter never panics.", "quantifier": "every text and all format options", "why_tests_cant": "Nesting, directives inside comments, and options combine without bound; the arithmetic that panics is only reached at particular depths.", "anchors": ["crates/tombi-formatter/src/formatter.rs: format, ident, inc_indent, format_tombi_comment_directive_content", "crates/tombi-formatter/src/format/value/array.rs", "crates/tombi-formatter/src/format/key.rs"]}
{"id": "C58", "title": "The format command does to each file what it should, at every moment and in every order", "statement": "`tombi format` with any number of files: with --check no file ever changes; files that were not selected never change; a file that cannot be parsed, is switched off or is formatted already is left alone; every other file ends up with exactly its formatted text and is counted as formatted, as if it had been alone; the exit code is 1 exactly if some file failed; every run ends; if the program is stopped at any moment, or a read or write fails, no text is lost; the text given on standard input comes out, formatted or as it was.", "quantifier": "all lists of search results, all contents and permissions of files, all formatter behaviours, all interleavings of the tasks, all sizes of partial reads and writes, all failures, all crash points", "why_tests_cant": "the tasks run on several threads and the operating system may split and fail reads and writes anywhere; tests see a few schedules and no crashes", "anchors": ["rust/tombi-cli/src/app/command/format.rs: run, inner_run, format_file, format_stdin, FormatFile", "crates/tombi-glob/src/file_search.rs: FileSearch"]}
{"id": "C59", "title": "The exit code of the lint command tells whether all files are in order", "statement": "`tombi lint` exits with 0 exactly if every given path exists, and every file that was found and is not switched off can be read and has no error, or no diagnostic at all with --error-on-warnings.", "quantifier": "all lists of search results, all files, all diagnostics the linter may give", "why_tests_cant": "it is about all combinations of files, levels and options", "anchors": ["rust/tombi-cli/src/app/command/lint.rs: run, inner_run, lint_file"]}
{"id": "C60", "title": "A JSON pointer in a schema reference leads to the value it denotes", "statement": "For a JSON document and a reference `#...`: if the fragment is a percent-encoding of the JSON pointer with tokens t1, ..., tn, the reference leads to exactly the value RFC 6901 says those tokens denote (members by name, array elements by index), whichever characters are escaped and however, and to nothing if they denote nothing. A reference that does not begin with # is no pointer.", "quantifier": "all JSON documents, all lists of tokens over all Unicode characters, all ways to percent-encode the pointer", "why_tests_cant": "tokens, escapes and encodings combine without bound; the repository tests six pointers", "anchors": ["crates/tombi-schema-store/src/schema/referable_schema.rs: resolve_json_pointer_node, percent_decode"]}
{"id": "C61", "title": "Following the references of a schema ends at the schema they lead to", "statement": "Within a schema document, a chain of `$ref`s resolves to the last schema of the chain; a value is accepted exactly if every schema of the chain accepts it; title, description, default, examples and deprecation come from the first reference that gives them; resolution returns for every document.", "quantifier": "all schema documents, all schemas in them, chains of any length", "why_tests_cant": "chains and circles of any length through any definitions; a circle makes the program never return, which a finite test cannot observe", "anchors": ["crates/tombi-schema-store/src/schema/referable_schema.rs: Referable::new, Referable::resolve, apply_ref_annotations, combine_ref_semantics, apply_ref_semantics", "crates/tombi-schema-store/src/schema/document_schema.rs: DocumentSchema::new"]}
{"id": "C62", "title": "The configuration in force is the nearest one", "statement": "Starting at a directory, the configuration used is that of the nearest directory above it (or itself) with a usable configuration file, in the order .tombi.toml, tombi.toml, .config/tombi.toml, pyproject.toml with a tool.tombi section; files that cannot be read as a configuration are passed over. Without one, the first existing file of the user ($XDG_CONFIG_HOME, ~/.config) and of the system is used; without any of these the default. The search returns for every file system.", "quantifier": "all file systems, all contents, all starting directories of any depth, all environments", "why_tests_cant": "the set of directory trees and of readable, unreadable and broken files in them is unbounded", "anchors": ["rust/serde_tombi/src/config.rs: try_from_path, load_with_path_and_level, get_user_or_system_tombi_config_path"]}
{"id": "C63", "title": "The most specific override for a path is the one that counts", "statement": "Of the overrides configured for a schema, the one used for a path in a document is one whose target stands for the path (keys and indices equal or any, same length); no other target for it has more definite parts, and of equally definite ones it is the first in the configuration. The overrides of the schema at hand come before those of the root schema. A comment directive decides before the overrides, and those before the schema; switching a sort order off always has effect.", "quantifier": "all lists of overrides, all targets of any length, all paths of any depth, all combinations of comment directive, override and schema", "why_tests_cant": "a tie or a shadowed override shows only for particular orders of particular targets, and the number of both is unbounded", "anchors": ["crates/tombi-schema-store/src/schema.rs: pattern_match_score, find_best_pattern_match", "crates/tombi-schema-store/src/store.rs: schema_overrides, parse_override_target", "crates/tombi-schema-store/src/schema/schema_context.rs: table_keys_order, array_values_order, table_order_override, array_order_override"]}
{"id": "C64", "title": "Paths in the configuration are read as documented and shown as they are written", "statement": "Every text of the documented notation of paths (TOML keys, `*`, `[*]`, `[1]`, joined by dots) is read as the path it stands for, and no text makes the reader panic; the text shown for a path is of that notation and is read back as the same path; other texts are rejected.", "quantifier": "all texts, all paths of any length with any keys", "why_tests_cant": "keys range over all Unicode strings, with quotes, escapes, dots and brackets in any combination", "anchors": ["crates/tombi-accessor/src/pattern_accessor.rs: PatternAccessor::parse, parse_quoted_key, Display for PatternAccessors", "crates/tombi-toml-text/src/lib.rs: to_key_string"]}
{"id": "C65", "title": "A document is checked against the schemas that the configuration gives for it", "statement": "For the whole document and for each part of it, the schema in use is that of the first entry of the configuration that matches the document, is for that place and whose schema can be had; a schema named in the document takes the place of the one for the whole document. Each schema in use comes with the settings of its own entry: its rules, its overrides and its strictness, the latter taken from the entry for the whole document and then from the general setting where the entry is silent. The version of TOML is that of the schema for the whole document.", "quantifier": "all lists of configured entries of any length, all outcomes of loading their schemas, all schemas named in the document", "why_tests_cant": "the order and number of entries, which of them match and which can be loaded combine without bound, and the settings of one entry can leak into another", "anchors": ["crates/tombi-schema-store/src/store.rs: resolve_source_schema, resolve_source_schema_from_path, try_get_source_schema_from_remote_url, load_config_schemas", "crates/tombi-schema-store/src/schema/source_schema.rs: SourceSchema::toml_version"]}
{"id": "C66", "title": "The cache of downloads gives for an address what was sent for that address, young enough, and keeps it available offline", "statement": "A schema given for an address was sent by the server for that very address, now or before; while online it is no older than the configured age; with caching switched off, only the server's reply counts. Offline, or when the server cannot be reached, the schema last downloaded for the address is given, whatever its age. All this holds for every sequence of downloads by any number of processes, including writes that end in the middle.", "quantifier": "all histories of downloads and writes, all points at which a write can stop, all addresses, options and times", "why_tests_cant": "histories, crash points and the addresses that share a file cannot be enumerated", "anchors": ["crates/tombi-cache/src/lib.rs: get_cache_file_path, read_from_cache, save_to_cache", "crates/tombi-schema-store/src/store.rs: fetch_schema_value, load_json_schema_from_cache, load_json_schema_from_cache_ignoring_ttl"]}
{"id": "C67", "title": "A long-running server uses the schemas that are on disk and on the net, not old ones", "statement": "However files change between and during calls, each request for a schema gives the one that is in its file at the time; a schema that could not be loaded is tried again; a schema from a server is fetched again when it is older than the configured age; updating a schema reads it again.", "quantifier": "all histories of changes and requests, all interleavings of a request with changes", "why_tests_cant": "the interleavings of requests and changes are unbounded, and stale answers depend on times of change", "anchors": ["crates/tombi-schema-store/src/store.rs: try_get_document_schema, update_schema, schema_cache_version"]}
{"id": "C68", "title": "The editor's rewriting actions keep what the document says", "statement": "Where the editor offers to convert dotted keys to an inline table, or an inline table to dotted keys, applying its edits to the text gives a text in which only that key/value is written in the other form, with every key still naming what it named, and the document says the same as before. The edits do not overlap and none ends before it begins.", "quantifier": "all documents, all places in them (at top level, in inline tables, in arrays), all keys and values, all blanks and comments between them", "why_tests_cant": "the place of the cursor, the neighbours in the same table, the spelling of keys and the nesting are unbounded", "anchors": ["crates/tombi-lsp/src/code_action.rs: dot_keys_to_inline_table_code_action, inline_table_to_dot_keys_code_action", "crates/tombi-document-tree/src/value/table.rs: Table::merge, new_parent_key, new_key_value", "crates/tombi-document-tree/src/lib.rs: dig_accessors"]}
{"id": "C69", "title": "What the parser lets pass, the linter reports", "statement": "The parser accepts more than TOML: items without a comma between them, arrays and inline tables with commas in odd places, inline tables over several lines. Of the texts it reads without an error, the linter's comma and inline table rules report nothing exactly when the sequence of tokens is a TOML document of the chosen version (for 1.0.0 no line break and no last comma in an inline table, for 1.1.0 both). A text that passes for 1.0.0 passes for every later version.", "quantifier": "all texts the parser reads without an error, all TOML versions, all nestings of arrays and inline tables, all places of comments and line breaks", "why_tests_cant": "where a comma can be missing or a line break can hide is unbounded: between any two items, after comments, in any depth of nesting", "anchors": ["crates/tombi-linter/src/rule/missing_comma.rs", "crates/tombi-linter/src/rule/trailing_comma.rs", "crates/tombi-linter/src/rule/inline_table_toml_version.rs", "crates/tombi-linter/src/lint/root.rs, table.rs, array_of_table.rs, key_value.rs, value.rs", "crates/tombi-linter/src/lint/value/array.rs, inline_table.rs", "crates/tombi-ast/src/impls/inline_table.rs: has_newlines_between_braces"]}
{"id": "C70", "title": "Everything is highlighted once, in the order of the text", "statement": "For a text read without errors, what the language server hands over for highlighting is exactly the comments, keys, equals signs, literals and header brackets of the text, each once, from left to right, with the type that its kind and place call for, and each where it stands in the text. Nothing panics.", "quantifier": "all texts read without errors, all nestings, all places of comments", "why_tests_cant": "comments can stand at unboundedly many places (before and after commas, brackets, headers, in any depth), and the encoding is relative: one token out of order moves everything behind it", "anchors": ["crates/tombi-lsp/src/semantic_tokens/root.rs, table.rs, array_or_table.rs, key_value.rs, key.rs, value.rs, array.rs, inline_table.rs, comment.rs", "crates/tombi-ast/src/support/comment.rs"]}
