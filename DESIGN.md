# Design of the formal model of tombi

The model is written in Rocq (Coq 8.16.1) under `rocq/theories`, standard library only.
`/repo` is read as text; nothing is built or executed from it.

## Conventions

* A character is a Unicode scalar value, an `N`.  A text is `list N`.  The UTF-8 length of a
  character is computed by `len_utf8`, so byte offsets are exact.
* Every model definition carries a comment `(* crate/file.rs:lines ... *)`; simplifications are
  stated in the same comment.
* Rust panics are explicit values (`None`/`Panic`), never silently totalised.  A theorem
  that claims a function does not panic says so in its statement.
* Machine integers are `N`/`Z`.  Where overflow is observable (integer literals, indentation
  width, offsets of date-times) the bound is modelled.  Byte offsets (`u32`) are unbounded: the
  model describes sources shorter than 4 GiB.
* Loops of the parser are fuelled by an explicit measure; the out-of-fuel result is a distinct
  value and the theorems show that it is not reached.
* External crates (`regex`, `unicode-segmentation`, `glob`, `chrono`, hash functions) enter as
  explicit arguments of theorems together with the properties used of them, except the
  regular expressions of the lexer, which are modelled by a regular-expression syntax with a
  derivative matcher that is proved correct against the denotational semantics.
* Each area has: a model file (definitions only), a `*_spec` part or file (the English property made
  formal without the model's helpers), a proof file, and a `Props` file containing the final theorems
  with `Print Assumptions` and examples that meet the hypotheses.
* When the code violates a property the theorem is named `..._refuted` and exhibits the witness;
  the part that does hold is proved with the suffix `_partial`.

## Plan per property

| id | model | proof |
|----|-------|-------|
| C01 | cursor and `advance_token` with all its sub-lexers | every sub-lexer advances the cursor by a prefix of the rest; induction on the rest |
| C02 | `Lexed::push_result_token`, `lex` | induction over the token stream |
| C03 | positions in the cursor | the same invariant carries the position |
| C04 | regular expressions as syntax, derivative matcher | TOML grammar as languages; inclusion lemmas; then evaluation of `advance_token` |
| C05 | same | counterexample (`0b|`, `1:e5`) and the exact language accepted |
| C06 | parser state machine (tokens, events), grammar functions, event processing, trivia builder | measure for termination; invariant "events cover the tokens up to pos in order"; builder inserts trivia; refuted by a witness that panics, partial theorem for the other inputs |
| C07 | depth argument of value parsing, `skip_too_deep_value` | induction on depth |
| C08 | string decoders | inductive relation for TOML strings; completeness and soundness |
| C09 | encoders | round trip by induction; refutation for the escapes the decoder rejects |
| C10 | date-time parser and printer | round trip by arithmetic on digits |
| C11 | version chunk iterator, comparator | lexicographic comparison lemmas; witnesses where transitivity fails |
| C12 | integer literal conversion | Horner evaluation against a positional specification |
| C13 | `requote_string` | uses C08 model: both decodings agree |
| C14 | comment formatting | case analysis on markers and trimming lemmas |
| C15 | delimiter replacement | uses C10 model |
| C16 | `get_sorted_accessors` over an abstract schema tree | Permutation by induction |
| C17 | array sorting with commas and comments | insertion into stable sort spec |
| C18 | `compute_text_edits`, `position_at_offset`, line index | decomposition old = p++m++s |
| C19 | line index and encodings | per-line decomposition |
| C20 | builder and the decoder of the LSP specification | induction on the token list |
| C21 | green nodes | list lemmas |
| C22 | node cache with an abstract hash | simulation with the uncached builder |
| C23 | key/values, sections, table kinds, merge | simulation: the tree's tables follow the states of a reading of TOML (`DocTreeSpec.toml`) |
| C24 | file matching, overrides, merge, walk and named files; pattern matching, canonical paths and the file system are arguments | list lemmas; overrides do not override, and command line and editor differ: `_refuted` |
| C25 | combinators on verdicts | case analysis, counting |
| C26 | numeric checks | arithmetic, including the panicking remainder |
| C27 | lint rules | sequence lemmas |
| C28 | labelled transition system of handlers with atomic sections between awaits | invariant over all schedules |
| C29 | JSON lexer, parser, numbers and printing | grammar with places; soundness by induction on fuel, completeness by induction on the grammar; rounding by the grid of the format; printing by induction on the value |
| C50 | parser: root, tables, groups of key/values | the trees an error-free run yields, by induction on the parser's loops, with the kinds at the two ends of what was read |
| C51 | parser: all of it | a grammar over the kinds of tokens; every run of the parser over a sequence of it that ends reports nothing, by induction on the nesting and on the loops |
| C54 | parser: all of it | the converse of C51: what a run without errors passes over is derivable in the same grammar, by induction on the nesting and on the loops; C07's report of deep nesting follows from the grammar |
| C52 | formatter, lexer, parser, views, decoding of tokens, document tree | the documents before and after have the same data (C31), and the syntax the tree is built from is a function of the data: the decoded values of tokens that say the same are equal |
| C53 | lexer, parser, views, decoding of tokens, document tree | the documents the views give have a key wherever the tree builder needs one, so the theorems of C23 hold for texts; the scalars of the tree are the decoded value tokens |
| C55 | serde_tombi's serializer, its text, then formatter, lexer, parser, tree | the text is a layout (C31) of a document whose syntax and meaning are computed by induction on the serialized value; what is read has the same data (ReadBack), formatting keeps it (C52); refuted for values that need escapes and others |
| C56 | serde_tombi's serializer | induction on a specification of what serde's data model means; refuted for enum variants and large unsigned integers |
| C57 | the formatter, as for C31 | every step of the formatter succeeds while the indentation fits, by induction on the values; directives by induction on the text; refuted for 128 nested arrays and for directives the parser panics on |
| C58 | the format command: one state machine per file (open, read in parts, format, truncate, hand over, write in parts), events chosen by the operating system and the scheduler, failures included | an invariant per task that depends on its own file only; a measure for termination; witnesses with the modelled formatter for what is false |
| C59 | the lint command as a function of the files | case analysis |
| C60 | JSON pointers of references: UTF-8, percent decoding, splitting, unescaping, the walk; RFC 6901, 3986 and 3629 as separate relations | inverse lemmas for each encoding; induction over the tokens, both directions; witnesses where the code differs |
| C61 | references within one schema document: the map of definitions, anchors, the loop that follows `$ref`, annotations and the `AllOf` of the schemas passed, with fuel for the unbounded loop | induction over the chain; divergence by an invariant of circles; termination by the pigeonhole principle over the names; witnesses where the code differs |
| C62 | the search for the configuration file: the names in one directory, the climb to the parents, the places of the user and the system; the file system and the reading of a configuration are arguments | the search is the first usable file of an explicit list of candidates; equivalences both ways; a witness for the panic |
| C63 | the score of a target for a path, the search for the best override, the overrides of a configuration, the precedence of comment directives, overrides and schemas | invariant of the search over the overrides seen so far; the best override is unique |
| C64 | the reader of paths with its quoted keys, and the printer | induction over the texts of a grammar; the printed text is in the grammar; witnesses where the code differs |
| C65 | the loop over the entries of the configuration, and the schema named in the document | invariant of the loop, from the list of the entries taken so far; witnesses where settings leak |
| C66 | the place of an address, saving and reading files, and the order of cache and server | invariant over histories of writes with outcomes; case analysis of a call on the copy that is left; witnesses where the code differs |
| C67 | the memory of schemas with their versions | invariant over runs of requests and changes; witnesses where a request and a change interleave |
| C68 | documents as texts with their gaps, the tree with its places, the two rewriting actions, edits applied to the text | a place for a key/value as a zipper; merging keeps closed values where they are; the meaning of a dotted key and of an inline table compared by a simulation; witnesses for what is false |
| C69 | the linter's comma and inline table rules over the tree of the parser | the grammar of documents as a recogniser of kinds of tokens; trees of the parser without errors have a known shape, and by induction on height a node passes exactly when its tokens do |
| C70 | the walk that collects the semantic tokens | the walk visits what the formatter's view (FormatterModel) holds, the view is known for trees of the parser; the tree read from left to right gives the same |
| C30, C31 | formatter over the syntax tree, with the editor's changes of commas | layout relation between the document and the pieces written, by induction on the document; C30 refuted for two options |
| C49 | the calls the formatter makes on itself | lower bound by induction on the nesting: refuted |
| C32 | with-comma iterator and rule | induction |
| C33 | tables of names | computation over all variants plus "no other string" |
| C34 | ranges and positions | arithmetic |
| C35 - C38 | string decoders, number conversion, date-time tokens, version sort | further theorems on the models of C08 - C12 |
| C39 | the string formats that are checked in this code base | grammars of the standards; both directions by cases and induction |
| C42 | `get_sorted_accessors` as for C16 | path order by induction; groups and schema order on one level |
| C43 | planned (header accessors and the document tree), not carried out: no such property is listed | none |
| C44 | the edit script of arrays and inline tables | invariant over the sequence of changes |
| C45 | red trees that are not edited: navigation, walks, tokens at a place | induction on the path from the root and on the tree |
| C48 | the same transition system with the cache of diagnostics | invariant on labels; request ids carried through every schedule; refuted for a settled server |
| C47 | the same trees: next and previous token | induction on the path from the root; refuted for trees with an empty node |
| C46 | red trees that are edited through handles, and their sorted linked lists | invariant of the heap over every sequence of edits |
| C40, C41 | array and table validation, stage by stage | each stage's effect on the verdict, by folding |

## What is modelled

| area | source | model | specification | theorems |
|------|--------|-------|---------------|----------|
| lexer | `tombi-lexer/src/{lib,cursor,token,lexed}.rs` | `LexerModel` | `LexerSpec`, `TomlGrammar` | `LexerProps` |
| strings | `tombi-toml-text/src/*.rs` | `TomlTextModel` | `TomlStringGrammar` | `TomlTextProps` |
| numbers | `tombi-ast`/`tombi-document-tree` literal conversion | `NumberModel` | `NumberSpec` | `NumberProps` |
| date-times | `tombi-date-time/src/*.rs`, date-time formatting | `DateTimeModel` | `DateTimeSpec` | `DateTimeProps` |
| version sort | `tombi-version-sort/src/lib.rs` | `VersionSortModel` | in `VersionSortProps` | `VersionSortProps` |
| parser | `tombi-parser/src/**` | `ParserModel` | first part of `ParserProps` | `ParserProps` |
| string and comment rewriting | `tombi-formatter/src/format.rs:27-47`, `format/comment.rs:125-194` | `FormatPieces` | first part of each section of `FormatPiecesProps` | `FormatPiecesProps` |
| ranges and positions | `tombi-text/src/{offset,position,range,relative_position,span}.rs` | `TextModel` | first part of `RangeProps` | `RangeProps` |
| editor positions, formatting edit, semantic tokens | `tombi-text/src/features/lsp.rs`, `tombi-lsp/src/handler/formatting.rs:182-273`, `tombi-lsp/src/semantic_tokens/builder.rs` | `LspTextModel` | `LspTextSpec`, definitions above C20 in `LspTextProps` | `LspTextProps` |
| typed view of the tree, syntactic lint rules | `tombi-ast/src/support/*`, `tombi-ast/src/impls/{root,table,array,inline_table,key}.rs`, `tombi-linter/src/rule/*.rs` | `AstModel`, `LinterModel` | definitions beside the theorems | `LinterProps` |
| schema validation | `tombi-validator/src/validate.rs`, `validate/{one_of,any_of,all_of,not_schema,if_then_else,adjacent_applicators,integer,string,array,table}.rs`, `validation_result.rs` | `ValidatorModel` | first part of `ValidatorProps`, the records `*_holds` of `ValidatorKeywordProps` | `ValidatorProps`, `ValidatorKeywordProps`, `ValidatorReportProps` |
| sorting of keys and tables | `tombi-ast-editor/src/rule/table_keys_order.rs:99-616` | `SortModel` | definitions beside the theorems | `SortProps` |
| sorting of array values, commas and comments | `tombi-ast-editor/src/rule/{array_values_order,array_comma_trailing_comment}.rs`, `rule/array_values_order/*.rs`, `edit/array.rs`, `edit/inline_table.rs`, `editor.rs:64-94` | `ArraySortModel` | first part of `ArraySortProps` | `ArraySortProps` |
| document tree | `tombi-document-tree/src/{root,value/table,value/array}.rs`, `tombi-ast/src/impls/{table,array_of_table,key}.rs` (array keys of a header) | `DocTreeModel` | `DocTreeSpec`, definitions in `DocTreeProps` | `DocTreeProps` |
| JSON | `tombi-json-lexer/src/*.rs`, `tombi-json/src/{parser,node}.rs`, `tombi-json-value/src/number.rs` | `JsonModel` | `JsonSpec`, `jtiles` and `number_is` in `JsonProps` | `JsonProps`, `JsonRound` |
| formatter | `tombi-formatter/src/{formatter.rs,format/**}`, `tombi-ast/src/impls/{array,inline_table}.rs` (splitting), `tombi-ast-editor` (commas) | `FormatterModel` | `FormatterLayout`, `FormatterSpec` | `FormatterProps`, `FormatterTextProps` |

Not modelled in the areas above: the grapheme segmentation used for columns (an argument of `lex`), the
32-bit packing of parser output steps (`output.rs:40-109`), `forward_parent` (never set by this code), the
range of the synthetic tokens of a split float key (never read), and the sharing of equal nodes in the
green-tree cache, which has its own property (C22).

### Parser (C06, C07)

The parser state is the list of tokens still ahead, the tokens behind, the nesting depth, the tokens
emitted and the events.  Grammar functions are state transformers that end in `Done`, `Panic`, `Diverge` or
`Deep`; loops carry as fuel one more than the number of tokens left.  The proof has three layers.
`ParserInv` defines what a run is: it consumes a prefix of the tokens, emits a forest of events whose
leaves cover exactly these tokens, and keeps the depth.  `ParserPrims`, `ParserGrammar` and `ParserValues`
show for each function that it runs and which significant token it stops at; every loop round consumes a
token.  `ParserBuild` shows that the trivia builder turns such a forest into a tree with the same text.
`ParserDepth` shows on its own, for every text, that the recursion stays below the limit.

`ParserAccepts` has a grammar over the kinds of tokens and runs the parser over every sequence of it (C51);
`ParserSound` goes the other way (C54): `took p q X` says that the parser passed the tokens `X`, and each parser
function that reports nothing has passed a derivable `X`.  Comments and line breaks that one function leaves for
the next are put in front of what follows (`carries`), because the parser groups them differently from the grammar.
So the texts read without errors are those of the grammar, no more and no fewer.

### Editor positions (C18, C19, C20)

The segmentation of a text into grapheme clusters (a library) is an argument; the theorems assume of it
what Unicode guarantees: it cuts the text into nonempty parts, parts stay parts when the text is cut at
one of its boundaries, CR LF is one cluster and a line feed ends one.  `seg_by` builds such segmentations
and shows that the assumptions can be met.  Positions are 32-bit numbers in the code and unbounded here.
Which elements of the tree are handed to the semantic-token builder, in which order, is not modelled: C20
is about every ordered list of pieces of the text.

### Lint rules (C27, C32)

An element of the tree is a green tree with all the text before it (`AstModel.el`), so that its range is
determined by the two.  Each rule is modelled switched on; the reading of its severity from the configuration
and from comment directives is not modelled, nor are the sorting of diagnostics and the schema validation that
runs after the rules.  Hash maps that group keys are lists in order of insertion; the theorems speak of the
reported elements up to their order.

The theorems take a tree and its source.  That the tree comes from the parser is used in the examples; what the
rules need of it (a key in quotes has its quotes, an array begins with its bracket, no group begins with a comma)
is in the hypotheses.

### Schema validation (C25, C26, C40, C41)

A subschema is a function from a path and a value to a result (`item`): loaded, failed to load, or absent.
This keeps the model independent of how schemas refer to each other; `C25_nested` closes the loop for schemas
of any depth built from the combinators.  A result carries the verdict, the diagnostics, the locations that
were evaluated and the evidence used to pick the best `oneOf`/`anyOf` branch, as in `validation_result.rs`.
Levels and `noqa`-style directives come from an argument (`rules`).  Regular expressions, string formats,
grapheme counting and the comparison of values for `uniqueItems`, `const` and `enum` are arguments as well.
The locks on the schema store are modelled as always available: a failed `try_read` skips a schema silently
and is not modelled.  Floats, booleans, date-times and the choice of the validator by the schema's type are
not modelled.

### Document tree (C23)

`DocTreeSpec.toml` reads a document from top to bottom, as the TOML text describes it: a name stands for a closed
value, a table with what created it (a longer header, its own header, dotted keys), or an array of tables.  It takes
the strict reading of "dotted keys cannot redefine": dotted keys extend only tables that dotted keys under the same
header created.  The model starts from decoded keys and scalars; incomplete syntax, ranges and comment directives are
left out.  `DocTreeProofs.rel` relates the states of the reading with tombi's tables by their kinds; every step of the
reading is matched by a merge without errors, and every forbidden step by an error.  Two things break this: a header is
told about earlier arrays of tables by a search that stops too early or does not notice that an array is gone
(`arrays_known` excludes it), and a table that comes after its own subtables can be merged into them (`names_free`).

### Sorting (C16, C17, C42, C44)

A schema is an argument: what it says of a table (its properties, patterns, subschemas and order), of an array and
of a combinator, and which values it accepts.  The entries to sort are paths with a payload.  The code gives up
(`None`) when a combinator has no matching member; this is the result `GiveUp`, and recursion through schemas is
bounded by fuel.  How the paths are made from table headers (`get_header_accessors`) is not modelled yet.

For arrays and inline tables the model is the list of entries, each with its comments and its comma; the changes
are computed from the unedited list and applied one by one, as `editor.rs` does, with nodes identified by number.
The layout of blank lines between groups of values is not modelled: one group is one list.

### Syntax trees (C21, C22, C45, C47)

Green trees are modelled with the lengths and positions the nodes store.  Interning is modelled with addresses: the
hash functions, the hash table (which entries it compares) and the allocator are arguments, so the theorem covers every
collision and every reuse of addresses.  The builder without a cache is the one of `ParserModel`.  Reference counts,
`unsafe` casts and `u32` overflow are left out.

A red node is modelled by value: its parent, index, offset, position and green element (`RedModel`).  Two handles for the
same place are then equal, which is what sharing the allocation gives in an immutable tree.  Equality in the code compares
the green pointer and the offset; it is an argument of the walks, and the theorems only assume that equal nodes have equal
green trees.  The iterators run on fuel; the theorems say that from some fuel on they return the whole walk.  Not modelled:
`covering_element`, `child_or_token_at_span` and `SyntaxText`, which nothing outside the crate uses.

### Trees that are edited (C46)

`MutModel` is a heap of cells: reference count, parent, index, green element and the children that are alive.  Reading or
writing a cell that is not in use, an assertion that fails and a loop that does not end are all the outcome `None`; the
allocator is an argument, only assumed to return an address that is not in use.  `MutSpec` says what a program may do
with handles (`op`), which calls are allowed (`allowed`: an inserted tree is a root or is among the children being
replaced, and does not contain the node it is inserted below) and what each call must do to every handle (`step`, by the
path from the root).  The invariant in `MutProofs` ties counts to references and cells to the trees; the theorems hold
for every reachable state.  `MutModel` keeps the ring of children as a list; `SllModel` has its pointers and `SllProps`
proves that the pointer operations do what the list operations do.  Not modelled: ownership of green nodes, overflow
of `u32`, `clone_for_update` and immutable trees (those are `RedModel`).  A column read through a handle of an edited tree
is wrong (`C46_position_refuted`); lines and offsets are right.

### Names and string formats (C33, C39)

`NameModel` has the tables of names; serde's derive is modelled by its kebab-case rule.  `FormatModel` has the checks that
are written out in the code base; `str::parse::<u32>` is modelled with the leading plus sign it accepts.  Email, host name,
UUID, IP address, URI and regular expression formats only call other crates and are left out; the URI parser is an argument
of the uri-reference check.

### JSON (C29)

`JsonSpec` gives the grammar of RFC 8259 with four switches (white space, zeros at the start of a number, trailing comma,
distinct names).  `C29_json_exact` says which setting tombi reads, with the value and the place of every node;
`C29_json_rfc_partial` and `C29_json_rfc_refuted` compare it with the RFC.  `str::parse::<f64>` is modelled by its documented
grammar and by rounding to nearest, ties to even; `C29_number_rounding` shows that this definition does round to nearest.
The format of an `f64` is an argument.  Deserialising with serde (`tombi-json/src/{lib,de}.rs`) is left out.

### Language server (C28, C48)

`ServerModel` runs the handlers of one document one step at a time between awaits; a schedule is a list of messages
received and handlers run, with what each await brings.  `ServerSpec` has the editor's copy of the document.  Assumed of
the runtime: control passes between handlers only at awaits, and the lock of the documents is first come first served, so
changes are applied in the order received.  Other documents, the limit on handlers under way and the content of the
diagnostics are left out; diagnostics are represented by the text and TOML version they were computed from.

### Files and options (C24)

Paths are lists of components.  `fast_glob`, `canonicalize`, the `ignore` crate's walk (the list of files it visits)
and the file system are arguments.  Option values are numbers, since only their presence matters for merging.  Reading
the configuration file, searching for it and the rules for ignored files and hidden directories are left out.

### Formatter (C30, C31, C49)

`FormatterModel` reads the syntax tree into a document (`view_root`: groups, items, commas and comments as the
typed view of the tree gives them) and formats the document into pieces, each the text of one token or of
blanks, with the kind of token it is meant to be.  The formatter's state (indentation, `skip_indent`,
`skip_comment`, single-line mode, buffer) is threaded through; a `u8` overflow of the indentation is `None`.
The model was run on the 256 cases of `test_format!` in the repository and gives the expected text for all of them.
From the text to the document: `ParserYield` says what trees an error-free run of a parser function yields for the tokens
it reads (`yields`), `ParserShape` goes through the grammar and gives the shape of these trees (`sh_doc`) and the line
breaks between them (`lined`, `line_tree`), `ParserTree` carries the shape over the building of the tree, where white
space is put back (`combed`), `ViewShape` shows that `view_root` reads every such tree, and `ViewContent` that the
content it reads is the content of the text (`read_content`).  `OneLine` shows that formatting the content of a
directive, in single-line mode, writes no line break; it discharges the hypothesis of `C31_content_kept`.

`FormatterLayout` says what a layout of a document is, `FormatterProofs` that formatting writes one, and
`FormatterEdit` that the editor's changes keep the content.  Simplified: no schema is loaded, so the editor only
adds and removes commas at the end of arrays and inline tables and moves their comments; `format.disabled` and the
ordering directives are not modelled; grapheme counting and segmentation are arguments.

The text that is written is lexed again: `LexLocal` shows that every token a text can have is lexed as that token again
wherever something stands after it that may follow a value or a key (numbers, dates, times and multi-line strings by
their regular expressions, bare keys with the case that a key and the key after the dot become a float), and
`FormatterRelex` that in every layout the next piece is such a thing (`neat`), so that the tokens of the written text
are its pieces (`C31_lexed_back`).  The bare keys must be those of TOML: `C31_lexed_back_refuted` has `+1 . a = 3`, which
is read without errors and formatted to `+1.a = 3`, which has an error.
The tokens of a written text are then in the grammar of C51: `ParseBack` goes through the layouts and gives, for every
way the lexer may cut keys like `1.2`, the lines and tables of the grammar; `ParseBackProofs` gives the nesting (the
parser's bound of 128, C07, holds for the document and the editor keeps it), that nothing starts with a blank, and that no
float stands after blanks where a key may stand.  So the written text is read without errors.  `ReadBack` shows unique
readability: two documents whose tokens are readings of the same tokens have the same data (`same_data`), by induction
on the first document with what follows; a number is a key in both or a value in both because of where it stands.
`C31_parsed_back` puts these together.

`TextTreeModel` closes the chain from the text to the tree: `literal_value` and `key_value` decode the tokens with the
functions of C06-C12 and C35, `syntax_of` is the syntax `DocTreeModel` builds the tree from (a scalar is kept there as a list of
numbers, and `C53_code` shows that different scalars have different lists).  `str::parse::<f64>` is an argument.  Not
modelled: what the tree holds in place of a token that has no value (the model gives no tree then), ranges, comments.
`TextPlaces` says, without any notion of merging, where a value belongs: under the keys of its key/value and its header, with
the positions in arrays counted, and arrays of tables counted by the headers before; `C53_places` is also a check of the
specification `toml` that C23 is stated with.

`SerdeModel` is the serializer of rust/serde_tombi: the calls serde makes (`sval`), the document (`dvalue`) and its text.  Not
modelled: reading configuration files and schemas (`to_string` then has the formatter's defaults, an argument here), the
deserializer, accessors in errors, 128-bit integers.  The texts of floats are an argument.  `SerdeSpec` says what a value
means (`means`, by serde's data model and externally tagged enums), what a document says (`doc_data`), and which documents
can be written (`table_ok`); data are compared up to the order of keys (`alike`).  `SerdeTokens` shows that the keys and
scalars are tokens that decode to themselves, `SerdeLayout` the values on one line, `SerdeSections` the text as sections,
`SerdeWhole` that it is a layout of a document the parser makes, `SerdeBack` that a layout is read as its document,
`SerdeMeaning` that the sections define the data, `SerdeSerialize` the document of a value, `SerdeValues` that the conditions
on the document follow from conditions on the value.  `FormatterTotal` follows the formatter along a tree and shows that it
panics only when the indentation does not fit in eight bits or when a directive makes the parser panic; `FormatterTotalProps`
states that as C57, with both panics as witnesses.  `SerdeTotal` bounds the indentation of a serialized document, so that
`C55_written_partial` also says that serialization succeeds.  `DocTreeArrays` adds a class of
documents to C23: those in which no header goes through an array of tables.

`CliModel` is the format and lint commands of rust/tombi-cli.  Files are bytes under numbers, so that two paths may lead to one
file; `tokio::fs::File` is modelled by what its documentation and source say: a write returns when its data have been handed to
another thread, and its result is seen by the next operation.  Not modelled: loading the configuration and the schemas, the
search for files (GlobModel), the messages, `--diff`, other programs changing the files.  `CliSpec` says what should become of one
file on its own.

`PointerModel` is `resolve_json_pointer_node` with `percent_decode`, over the values of `JsonModel`.  What `from_utf8_lossy` makes of
bytes that are no UTF-8 is an argument.  `PointerSpec` is RFC 6901 (tokens, escapes, indices), RFC 3986 (percent encoding as a relation)
and RFC 3629 (UTF-8 as a relation).  `ReferenceModel` follows `$ref` within one document: definitions, anchors, then the pointer.
Not modelled: other documents, `$dynamicRef`, `$recursiveRef`, the views that schemas are turned into (a view is its JSON source and
what was set on it), the write-back of a resolved reference.  The loop takes fuel; `None` is a call that has not returned yet, and
`C61_returns` says for which schemas no fuel is enough.  `ReferenceSpec` says what a chain and a circle are.

`ConfigFileModel` is the search for the configuration file in rust/serde_tombi.  Reading a configuration from a text is an argument, so
C62 is about which file is used and not about what it says.  The file system does not change during the search.

`OverrideModel` is the paths of the configuration, the overrides and their precedence.  `OverrideSpec` gives the notation of paths as a
grammar, built on the grammar of TOML keys, and says which paths a pattern stands for.

`AssociationModel` is the loop that collects the schemas for a document.  Loading a schema and matching a path are arguments, so C65 is
about which entries are used and whose settings they get.

`CacheModel` is the cache of downloads.  A history is the list of all writes to the cache, each with its outcome; a process that stops in
the middle of a write leaves a prefix of the bytes.  `copy` in `CacheProps` says what is left of an address.  `SchemaMemoryModel` is the memory
of schemas on top of it; a request is given the states of the files at the instants at which it looks at them.

`CodeActionModel` is the two code actions that rewrite a table, with the part of the document tree that keeps places.  A document is its
text cut into keys, values and what is between them, without headers; a place is a number of characters.  Which keys lead to the cursor is
written down in `CodeActionSpec` (`accessors_at`, `contexts_at`) and not derived from the syntax tree.  Not modelled: headers, the ordering of
code actions, the conversion to lines and columns (TextModel).

`LintRulesModel` is the five rules of the linter about commas and inline tables, run over the tree of ParserModel.  `LintGrammarSpec` is the
grammar of TOML documents over kinds of tokens, blanks left out: it says nothing about the text of a key or a literal, and nothing about
tables defined twice.  C69 is about texts that the parser reads without an error; TOML that the parser rejects is in
`C51_valid_toml_refuted`.  Not modelled: `lint.disabled`, the choice of the version.  Reports carry
byte spans; `LintLastComma` says where the reports about missing, last and trailing commas are, not the one about line breaks.

`HighlightModel` is the walk over the tree that collects what is highlighted; the builder it calls is in LspTextModel (C20).  `HighlightSpec`
reads the tokens of the tree from left to right.  Whether a comment holds a directive is not modelled here: either way the builder gets the
comment's range.

How to read `seeded/LOG.jsonl`: `killed` means that the build of the edited model failed.  `first_failing` are the lemmas at which it failed;
`theorems_failed` are the final theorems whose proofs mention those lemmas, directly or through others, found by name.  Their statements
were not each checked to be false of the edited model: a proof can fail because its script follows a definition closely.  Where the note says
`evaluated`, the statement was computed on texts for the edited model.  This was done for the edits of `HighlightModel` (all 18 falsify C70)
and `LintRulesModel` (13 of the first 18 falsify C69_exact; for three of the others C69_last_comma was added, two are marked `weak`); for most older entries it was not.  Seven attempts that break no
claim, or did not compile, had been taken out of the log and are back in it (`put back` in the note).  Others may be missing from before batch files were kept.

## Trusted base

* Coq's kernel (8.16.1); `vm_compute` is used for closed computations and is part of the kernel.
* No axioms of our own.  `Print Assumptions` is run beside every final theorem; the expected answer is
  "Closed under the global context".
* The faithfulness of the hand-written model to the Rust source, as cited definition by definition.
* `coqchk` style listings also show seven library constants of `Coq.ssr.ssrunder`: they come with the
  modules loaded by `Lia`/`ZifyBool`; no theorem depends on them.
