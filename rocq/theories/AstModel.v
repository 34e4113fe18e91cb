(** Model of crates/tombi-ast: the typed view of the syntax tree.  Definitions only. *)
From Coq Require Import String Ascii List NArith Bool.
From Verif Require Import Base SyntaxKind TextModel LexerModel LexerSpec TomlTextModel ParserModel ParserBuild.
Import ListNotations.
Open Scope N_scope.
Open Scope list_scope.

(** A red element (crates/tombi-rg-tree/src/cursor.rs: [SyntaxElement]): a green element and its place,
    given here by all the text before it. *)
Record el := El { pre : str; it : tree }.
Definition tkind_of (t : tree) : kind := match t with TNode k _ => k | TToken k _ => k end.
Definition ekind_of (e : el) : kind := tkind_of (it e).
Definition etext (e : el) : str := ttext (it e).
Definition is_node (e : el) : bool := match it e with TNode _ _ => true | TToken _ _ => false end.

(** crates/tombi-rg-tree/src/cursor.rs [children_with_tokens]; [children] keeps the nodes. *)
Fixpoint place_children (p : str) (cs : list tree) : list el :=
  match cs with
  | [] => []
  | c :: cs' => El p c :: place_children (p ++ ttext c) cs'
  end.
Definition children_with_tokens (e : el) : list el :=
  match it e with TNode _ cs => place_children (pre e) cs | TToken _ _ => [] end.
Definition children (e : el) : list el := filter is_node (children_with_tokens e).

(** crates/tombi-rg-tree/src/cursor.rs:717-719, 855-857 *)
Definition espan_of (e : el) : span := MkSpan (len_bytes (pre e)) (len_bytes (pre e) + len_bytes (etext e)).
Fixpoint last_token (t : tree) : option tree :=
  match t with
  | TToken _ _ => Some t
  | TNode _ cs => (fix go (cs : list tree) := match cs with [] => None | [c] => last_token c | _ :: cs' => go cs' end) cs
  end.

Definition has_kind (k : kind) (e : el) : bool := kind_eqb (ekind_of e) k.
Definition kind_in (ks : list kind) (e : el) : bool := existsb (kind_eqb (ekind_of e)) ks.

(** crates/tombi-ast/src/support/node.rs:3-24 *)
Definition child (can_cast : kind -> bool) (e : el) : option el := find (fun c => can_cast (ekind_of c)) (children e).
Definition children_of (can_cast : kind -> bool) (e : el) : list el := filter (fun c => can_cast (ekind_of c)) (children e).
Definition token (k : kind) (e : el) : option el := find (fun c => negb (is_node c) && has_kind k c) (children_with_tokens e).

(** crates/tombi-ast/src/generated/ast_node.rs: the casts *)
Definition is_kind (k : kind) (k' : kind) : bool := kind_eqb k' k.
Definition is_key (k : kind) : bool := match k with BARE_KEY | BASIC_STRING | LITERAL_STRING => true | _ => false end.
Definition is_value (k : kind) : bool :=
  match k with
  | ARRAY | BASIC_STRING | BOOLEAN | FLOAT | INLINE_TABLE | INTEGER_BIN | INTEGER_DEC | INTEGER_HEX | INTEGER_OCT
  | LITERAL_STRING | LOCAL_DATE | LOCAL_DATE_TIME | LOCAL_TIME | MULTI_LINE_BASIC_STRING | MULTI_LINE_LITERAL_STRING
  | OFFSET_DATE_TIME => true
  | _ => false
  end.
Definition is_root_item (k : kind) : bool := match k with ARRAY_OF_TABLE | KEY_VALUE | TABLE => true | _ => false end.
Definition is_table_or_array_of_table (k : kind) : bool := match k with TABLE | ARRAY_OF_TABLE => true | _ => false end.

(** [KeyValue::keys], [Table::header], [ArrayOfTable::header]; [Keys::keys]; [KeyValue::value] *)
Definition keys_child (e : el) : option el := child (is_kind KEYS) e.
Definition keys_of (e : el) : list el := children_of is_key e.
Definition value_child (e : el) : option el := child is_value e.
Definition root_items (e : el) : list el := children_of is_root_item e.

(** crates/tombi-ast/src/support/comment.rs:8-22 *)
Definition dangling_kind : el -> bool := kind_in [DANGLING_COMMENT_GROUP; LINE_BREAK; WHITESPACE].
Definition dangling_groups_in (es : list el) : list el :=
  filter (fun e => is_node e && has_kind DANGLING_COMMENT_GROUP e) (take_while dangling_kind es).
(** crates/tombi-ast/src/support/comment.rs:24-44.  Dangling groups and item groups, in order. *)
Inductive group_or := GDangling (e : el) | GItems (e : el).
Definition dangling_comment_group_or (can_cast : kind -> bool) (es : list el) : list group_or :=
  flat_map (fun e =>
    if is_node e then
      if has_kind DANGLING_COMMENT_GROUP e then [GDangling e]
      else if can_cast (ekind_of e) then [GItems e] else []
    else []) (drop_while dangling_kind es).
Definition item_groups (gs : list group_or) : list el :=
  flat_map (fun g => match g with GItems e => [e] | GDangling _ => [] end) gs.

(** crates/tombi-ast/src/support/comment.rs:46-58 *)
Definition leading_comments_in (es : list el) : list el :=
  filter (fun e => negb (is_node e) && has_kind COMMENT e) (take_while (kind_in [COMMENT; LINE_BREAK; WHITESPACE]) es).
(** crates/tombi-ast/src/support/comment.rs:60-84 *)
Definition is_comment_token (e : el) : bool := negb (is_node e) && has_kind COMMENT e.
Definition trailing_comment_in (es : list el) (close : kind) : option el :=
  match tl (drop_while (fun e => negb (has_kind close e) && negb (has_kind EOF e)) es) with
  | [] => None
  | e :: rest =>
      if is_comment_token e then Some e
      else if negb (is_node e) && has_kind WHITESPACE e then
        match rest with
        | e' :: _ => if is_comment_token e' then Some e' else None
        | [] => None
        end
      else None
  end.
(** crates/tombi-ast/src/support/comment.rs:86-99 *)
Definition next_if (k : kind) (es : list el) : bool * list el :=
  match es with
  | e :: rest => if has_kind k e then (true, rest) else (false, es)
  | [] => (false, [])
  end.
Definition skip_trailing_comment (es : list el) : list el :=
  let (_, es) := next_if WHITESPACE es in
  let (c, es) := next_if COMMENT es in
  if c then snd (next_if LINE_BREAK es) else es.

(** crates/tombi-ast/src/impls/array.rs:57-68, crates/tombi-ast/src/impls/inline_table.rs:57-68 *)
Definition after_opening (k : kind) (e : el) : list el :=
  skip_trailing_comment (tl (drop_while (fun c => negb (has_kind k c)) (children_with_tokens e))).
Definition value_with_comma_groups (array : el) : list group_or :=
  dangling_comment_group_or (is_kind VALUE_WITH_COMMA_GROUP) (after_opening BRACKET_START array).
Definition key_value_with_comma_groups (table : el) : list group_or :=
  dangling_comment_group_or (is_kind KEY_VALUE_WITH_COMMA_GROUP) (after_opening BRACE_START table).
(** crates/tombi-ast/src/impls/table.rs:70-80, crates/tombi-ast/src/impls/array_of_table.rs:70-80 and
    crates/tombi-ast/src/impls/root.rs:88-90 *)
Definition after_header (close : kind) (e : el) : list el :=
  drop_while (fun c => negb (kind_in [LINE_BREAK; DANGLING_COMMENT_GROUP] c))
    (drop_while (fun c => negb (has_kind close c)) (children_with_tokens e)).
Definition table_close (e : el) : kind := if has_kind ARRAY_OF_TABLE e then DOUBLE_BRACKET_END else BRACKET_END.
Definition key_value_groups (e : el) : list group_or :=
  dangling_comment_group_or (is_kind KEY_VALUE_GROUP)
    (if has_kind ROOT e then children_with_tokens e else after_header (table_close e) e).

(** crates/tombi-ast/src/support/iter.rs:18-46 [WithCommaIter], over the nodes of a group. *)
Fixpoint with_comma (can_cast : kind -> bool) (nodes : list el) (pending : option el) : list (el * option el) :=
  match nodes with
  | [] => match pending with Some p => [(p, None)] | None => [] end
  | n :: ns =>
      if can_cast (ekind_of n) then
        match pending with
        | Some p => (p, None) :: with_comma can_cast ns (Some n)
        | None => with_comma can_cast ns (Some n)
        end
      else if has_kind COMMA n then
        match pending with
        | Some p => (p, Some n) :: with_comma can_cast ns None
        | None => with_comma can_cast ns None
        end
      else with_comma can_cast ns pending
  end.
Definition items_with_comma (can_cast : kind -> bool) (group : el) : list (el * option el) := with_comma can_cast (children group) None.

(** crates/tombi-ast/src/impls/root.rs:92-101, crates/tombi-ast/src/impls/table.rs:82-87,
    crates/tombi-ast/src/impls/inline_table.rs:70-75, crates/tombi-ast/src/impls/array.rs:70-75 *)
Definition key_values (e : el) : list el := flat_map (children_of (is_kind KEY_VALUE)) (item_groups (key_value_groups e)).
Definition inline_key_values (e : el) : list el :=
  flat_map (children_of (is_kind KEY_VALUE)) (item_groups (key_value_with_comma_groups e)).
Definition array_values (e : el) : list el := flat_map (children_of is_value) (item_groups (value_with_comma_groups e)).

(** crates/tombi-ast/src/impls/key.rs:10-16, 27-41: the token of a key is the token of the kind of the node;
    [DPanic] stands for the [unwrap] of a missing token. *)
Definition key_token (key : el) : option el := token (ekind_of key) key.
Definition try_to_raw_text (v : toml_version) (key : el) : decoded :=
  match key_token key with
  | None => DPanic
  | Some t =>
      match ekind_of key with
      | BARE_KEY => try_from_bare_key (etext t)
      | BASIC_STRING => try_from_basic_string (etext t) v
      | LITERAL_STRING => try_from_literal_string (etext t)
      | _ => DPanic
      end
  end.
