(** The walk of the language server over the syntax tree that collects what is highlighted (semantic tokens). *)
From Coq Require Import String Ascii List NArith Bool Arith.
From Verif Require Import Base SyntaxKind TextModel LexerModel ParserModel TomlTextModel AstModel FormatterModel.
Import ListNotations.
Open Scope N_scope.
Open Scope list_scope.

(** crates/tombi-lsp/src/semantic_tokens/token_type.rs.  The last two are no types of the code: [UnwrapPanic] is the panic of an [unwrap],
    [NotVisited] is what the model says when it has not followed the tree to its end. *)
Inductive token_type := StringType | NumberType | BooleanType | OffsetDateTimeType | LocalDateTimeType | LocalDateType | LocalTimeType |
  KeyType | TableType | OperatorType | CommentType | UnwrapPanic | NotVisited.
(** One call of [SemanticTokensBuilder::add_token], or of [add_comment_directive] for a comment with a directive
    (crates/tombi-lsp/src/semantic_tokens/comment.rs, root.rs:13-33).  How the calls are written to the protocol is LspTextModel.v. *)
Notation mark := (token_type * el)%type.
Definition mark_all (ty : token_type) (es : list el) : list mark := map (fun e => (ty, e)) es.
Definition mark_some (ty : token_type) (o : option el) : list mark := match o with Some e => [(ty, e)] | None => [] end.

(** crates/tombi-ast/src/lib.rs:28-37 *)
Definition leading_els (e : el) : list el := leading_comments_in (children_with_tokens e).
Definition trailing_el (e : el) : option el :=
  match last_token (it e) with
  | Some (TToken COMMENT s) => Some (El (pre e ++ firstn (length (etext e) - length s) (etext e)) (TToken COMMENT s))
  | _ => None
  end.
(** crates/tombi-ast/src/node/dangling_comment_group.rs:10-14 *)
Definition comment_els (e : el) : list el := filter is_comment_token (children_with_tokens e).
(** The two loops over comment groups and groups of items that every container has, for instance
    crates/tombi-lsp/src/semantic_tokens/table.rs:31-54: first the comment groups at the start of [es], then the other groups. *)
Definition mark_groups (can : kind -> bool) (items : el -> list mark) (es : list el) : list mark :=
  flat_map (fun g => mark_all CommentType (comment_els g)) (dangling_groups_in es) ++
  flat_map (fun g => match g with GDangling g => mark_all CommentType (comment_els g) | GItems g => items g end) (dangling_comment_group_or can es).
(** crates/tombi-lsp/src/semantic_tokens/array.rs:37-45, inline_table.rs:29-37 *)
Definition mark_comma (c : option el) : list mark :=
  match c with Some c => mark_all CommentType (leading_els c) ++ mark_some CommentType (trailing_el c) | None => [] end.
(** crates/tombi-lsp/src/semantic_tokens/key_value.rs:5-25 and key.rs, over the marks of a value *)
Definition mark_key_value (mark_value : el -> list mark) (e : el) : list mark :=
  mark_all CommentType (leading_els e) ++
  match keys_child e with Some ks => mark_all KeyType (keys_of ks) | None => [] end ++
  mark_some OperatorType (token EQUAL e) ++
  match value_child e with Some v => mark_value v | None => [] end.
(** crates/tombi-lsp/src/semantic_tokens/value.rs:14-49 *)
Definition literal_type (k : kind) : option token_type :=
  match k with
  | BASIC_STRING | LITERAL_STRING | MULTI_LINE_BASIC_STRING | MULTI_LINE_LITERAL_STRING => Some StringType
  | INTEGER_BIN | INTEGER_OCT | INTEGER_DEC | INTEGER_HEX | FLOAT => Some NumberType
  | BOOLEAN => Some BooleanType
  | OFFSET_DATE_TIME => Some OffsetDateTimeType
  | LOCAL_DATE_TIME => Some LocalDateTimeType
  | LOCAL_DATE => Some LocalDateType
  | LOCAL_TIME => Some LocalTimeType
  | _ => None
  end.
(** crates/tombi-ast: the cast to [ValueOrKeyValue] *)
Definition is_value_or_key_value (k : kind) : bool := is_value k || is_kind KEY_VALUE k.
(** crates/tombi-lsp/src/semantic_tokens/array.rs:24-46 *)
Definition mark_values (mark_value : el -> list mark) (g : el) : list mark :=
  flat_map (fun p : el * option el => (if has_kind KEY_VALUE (fst p) then mark_key_value mark_value (fst p) else mark_value (fst p)) ++ mark_comma (snd p))
    (items_with_comma is_value_or_key_value g).
(** crates/tombi-lsp/src/semantic_tokens/inline_table.rs:26-38 *)
Definition mark_inline_key_values (mark_value : el -> list mark) (g : el) : list mark :=
  flat_map (fun p : el * option el => mark_key_value mark_value (fst p) ++ mark_comma (snd p)) (items_with_comma (is_kind KEY_VALUE) g).
(** crates/tombi-lsp/src/semantic_tokens/value.rs:5-58, array.rs:5-49 and inline_table.rs:5-41.  The code recurs along the tree, the model
    on its height. *)
Fixpoint mark_value (fuel : nat) (e : el) : list mark :=
  match fuel with
  | O => [(NotVisited, e)]
  | S f =>
      mark_all CommentType (leading_els e) ++
      match ekind_of e with
      | ARRAY =>
          mark_some CommentType (trailing_comment_in (children_with_tokens e) BRACKET_START) ++
          mark_groups (is_kind VALUE_WITH_COMMA_GROUP) (mark_values (mark_value f)) (after_opening BRACKET_START e)
      | INLINE_TABLE =>
          mark_some CommentType (trailing_comment_in (children_with_tokens e) BRACE_START) ++
          mark_groups (is_kind KEY_VALUE_WITH_COMMA_GROUP) (mark_inline_key_values (mark_value f)) (after_opening BRACE_START e)
      | k =>
          match literal_type k with
          | Some ty => match token k e with Some t => [(ty, t)] | None => [(UnwrapPanic, e)] end
          | None => []
          end
      end ++
      mark_some CommentType (trailing_el e)
  end.
(** crates/tombi-lsp/src/semantic_tokens/table.rs:46-49: the key/values of a group; its commas are not looked at *)
Definition mark_lines (mark_value : el -> list mark) (g : el) : list mark := flat_map (mark_key_value mark_value) (children_of (is_kind KEY_VALUE) g).
(** crates/tombi-lsp/src/semantic_tokens/table.rs:7-54 and array_or_table.rs:7-50 *)
Definition mark_table (fuel : nat) (e : el) : list mark :=
  mark_all CommentType (leading_els e) ++
  mark_some OperatorType (token (if has_kind ARRAY_OF_TABLE e then DOUBLE_BRACKET_START else BRACKET_START) e) ++
  match keys_child e with Some ks => mark_all TableType (keys_of ks) | None => [] end ++
  mark_some OperatorType (token (table_close e) e) ++
  mark_some CommentType (trailing_comment_in (children_with_tokens e) (table_close e)) ++
  mark_groups (is_kind KEY_VALUE_GROUP) (mark_lines (mark_value fuel)) (after_header (table_close e) e).
(** crates/tombi-lsp/src/semantic_tokens/root.rs:8-60 *)
Definition mark_root (fuel : nat) (e : el) : list mark :=
  mark_groups (is_kind KEY_VALUE_GROUP) (mark_lines (mark_value fuel)) (children_with_tokens e) ++
  flat_map (mark_table fuel) (children_of is_table_or_array_of_table e).
(** What is highlighted in the tree of a text, in the order in which it is handed to the builder *)
Definition highlights (t : tree) : list mark := mark_root (height t) (El [] t).
