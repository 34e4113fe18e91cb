(** Model of crates/tombi-formatter: the layout of a whole document.  Definitions only.
    The formatter reads the syntax tree through the typed view of crates/tombi-ast; here that view is taken
    once ([view_root]), the editor's rules are applied to it ([edit_root]) and the result is printed. *)
From Coq Require Import String Ascii List NArith Bool Arith.
From Verif Require Import Base SyntaxKind TextModel LexerModel LexerSpec TomlTextModel ParserModel ParserBuild AstModel
  FormatPieces DateTimeModel.
Import ListNotations.
Open Scope N_scope.
Open Scope list_scope.

(** * What the formatter sees of a document *)
(** A key: its kind and the text of its token (crates/tombi-ast/src/impls/key.rs:10-16). *)
Definition fkey := (kind * str)%type.
(** A comma: the comments before and after it (crates/tombi-ast/src/lib.rs:28-37). *)
Inductive fcomma := Comma (lead : list str) (tc : option str).
(** A group of comments or of items (crates/tombi-ast/src/node/dangling_comment_group_or.rs) with the number
    of blank lines before it (crates/tombi-formatter/src/format.rs:76-94). *)
Inductive group (I : Type) := GD (blank : N) (cs : list str) | GI (blank : N) (items : list I).
Arguments GD {I} _ _.
Arguments GI {I} _ _.
(** A value of an array ([keys = []]) or a key/value with its comma; [raw] is the text of the keys as written. *)
Inductive item (V : Type) := Item (lead : list str) (keys : list fkey) (raw : str) (v : V) (comma : option fcomma).
Arguments Item {V} _ _ _ _ _.
(** A value: a literal with the token's text, or an array ([table = false]) or inline table; comments before,
    after the opening bracket and after the value. *)
Inductive fval :=
| FLit (lead : list str) (k : kind) (tok : str) (tc : option str)
| FBox (table : bool) (lead : list str) (otc : option str) (gs : list (group (item fval))) (tc : option str).
Record ftable := FTable { t_array : bool; t_lead : list str; t_keys : list fkey; t_tc : option str;
                          t_groups : list (group (item fval)); t_blank : N }.
Record fdoc := FDoc { d_groups : list (group (item fval)); d_tables : list ftable }.

(** * The view *)
(** crates/tombi-ast/src/lib.rs:28-37 *)
Definition leading_texts (e : el) : list str := map etext (leading_comments_in (children_with_tokens e)).
Definition trailing_text (e : el) : option str :=
  match last_token (it e) with Some (TToken COMMENT s) => Some s | _ => None end.

(** crates/tombi-formatter/src/format.rs:76-94 [blank_lines_before], for every child; [n] line breaks have
    been seen since the last child that is no blank. *)
Fixpoint with_blanks (n : N) (es : list el) : list (N * el) :=
  match es with
  | [] => []
  | e :: es' =>
      (N.min 255 (n - 1), e) ::
      with_blanks (if has_kind WHITESPACE e then n else if has_kind LINE_BREAK e then n + 1 else 0) es'
  end.

Definition opt_all {A B} (f : A -> option B) : list A -> option (list B) :=
  fix go (l : list A) : option (list B) :=
  match l with
  | [] => Some []
  | a :: l' => match f a, go l' with Some b, Some bs => Some (b :: bs) | _, _ => None end
  end.

(** [Key::token] for each key of [Keys::keys]; [None] where the formatter unwraps a missing token. *)
Definition view_key (e : el) : option fkey := option_map (fun t => (ekind_of e, etext t)) (key_token e).
Definition view_keys (e : el) : option (list fkey) := opt_all view_key (keys_of e).

Definition view_comma (e : el) : fcomma := Comma (leading_texts e) (trailing_text e).

(** crates/tombi-ast/src/node/dangling_comment_group.rs:10-14 *)
Definition group_comments (e : el) : list str := map etext (filter is_comment_token (children_with_tokens e)).

(** crates/tombi-ast/src/support/comment.rs:8-44: the dangling groups at the start followed by the other groups;
    [vi] views the items of a group. *)
Definition view_groups (can : kind -> bool) (vi : el -> option (list (item fval))) (es : list (N * el)) :
    option (list (group (item fval))) :=
  option_map (@concat _) (opt_all (fun be : N * el =>
    let (b, e) := be in
    if is_node e then
      if has_kind DANGLING_COMMENT_GROUP e then Some [GD b (group_comments e)]
      else if can (ekind_of e) then option_map (fun its => [GI b its]) (vi e) else Some []
    else Some []) es).

(** [skip_while(kind != open).skip(1)] and [skip_trailing_comment] of AstModel, keeping the blank lines:
    neither the skipped tokens nor what they are counted in is a node. *)
Definition bdrop_while (f : el -> bool) : list (N * el) -> list (N * el) := drop_while (fun be : N * el => f (snd be)).
Definition bnext_if (k : kind) (es : list (N * el)) : bool * list (N * el) :=
  match es with
  | (b, e) :: rest => if has_kind k e then (true, rest) else (false, es)
  | [] => (false, [])
  end.
Definition bafter_opening (k : kind) (e : el) : list (N * el) :=
  let es := tl (bdrop_while (fun c => negb (has_kind k c)) (with_blanks 0 (children_with_tokens e))) in
  let (_, es) := bnext_if WHITESPACE es in
  let (c, es) := bnext_if COMMENT es in
  if c then snd (bnext_if LINE_BREAK es) else es.
Definition bafter_header (close : kind) (e : el) : list (N * el) :=
  bdrop_while (fun c => negb (kind_in [LINE_BREAK; DANGLING_COMMENT_GROUP] c))
    (bdrop_while (fun c => negb (has_kind close c)) (with_blanks 0 (children_with_tokens e))).

Definition view_literal (e : el) : option fval :=
  option_map (fun t => FLit (leading_texts e) (ekind_of e) (etext t) (trailing_text e)) (token (ekind_of e) e).

(** [KeyValue::keys] and [KeyValue::value], both unwrapped by crates/tombi-formatter/src/format/key_value.rs:23-40;
    [vv] views the value. *)
Definition view_key_value (vv : el -> option fval) (e : el) (comma : option el) : option (item fval) :=
  match keys_child e, value_child e with
  | Some ks, Some v =>
      match view_keys ks, vv v with
      | Some ks', Some v' => Some (Item (leading_texts e) ks' (etext ks) v' (option_map view_comma comma))
      | _, _ => None
      end
  | _, _ => None
  end.
Definition view_value_item (vv : el -> option fval) (e : el) (comma : option el) : option (item fval) :=
  option_map (fun v => Item [] [] [] v (option_map view_comma comma)) (vv e).
Definition view_key_values (vv : el -> option fval) (e : el) : option (list (item fval)) :=
  opt_all (fun kc : el * option el => view_key_value vv (fst kc) (snd kc)) (items_with_comma (is_kind KEY_VALUE) e).
Definition view_values (vv : el -> option fval) (e : el) : option (list (item fval)) :=
  opt_all (fun kc : el * option el => view_value_item vv (fst kc) (snd kc)) (items_with_comma is_value e).

(** crates/tombi-ast/src/impls/array.rs and inline_table.rs; [fuel] bounds the nesting of the tree. *)
Fixpoint view_value (fuel : nat) (e : el) : option fval :=
  match fuel with
  | O => None
  | S f =>
      match ekind_of e with
      | ARRAY =>
          option_map (fun gs => FBox false (leading_texts e)
              (option_map etext (trailing_comment_in (children_with_tokens e) BRACKET_START)) gs (trailing_text e))
            (view_groups (is_kind VALUE_WITH_COMMA_GROUP) (view_values (view_value f)) (bafter_opening BRACKET_START e))
      | INLINE_TABLE =>
          option_map (fun gs => FBox true (leading_texts e)
              (option_map etext (trailing_comment_in (children_with_tokens e) BRACE_START)) gs (trailing_text e))
            (view_groups (is_kind KEY_VALUE_WITH_COMMA_GROUP) (view_key_values (view_value f)) (bafter_opening BRACE_START e))
      | _ => view_literal e
      end
  end.

(** crates/tombi-ast/src/impls/table.rs:32-80, array_of_table.rs:32-80 *)
Definition view_table (fuel : nat) (be : N * el) : option ftable :=
  let (b, e) := be in
  match keys_child e with
  | None => None
  | Some ks =>
      match view_keys ks,
            view_groups (is_kind KEY_VALUE_GROUP) (view_key_values (view_value fuel)) (bafter_header (table_close e) e) with
      | Some ks', Some gs =>
          Some (FTable (has_kind ARRAY_OF_TABLE e) (leading_texts e) ks'
            (option_map etext (trailing_comment_in (children_with_tokens e) (table_close e))) gs b)
      | _, _ => None
      end
  end.
(** crates/tombi-ast/src/impls/root.rs:88-113 *)
Definition view_root (fuel : nat) (e : el) : option fdoc :=
  let es := with_blanks 0 (children_with_tokens e) in
  match view_groups (is_kind KEY_VALUE_GROUP) (view_key_values (view_value fuel)) es,
        opt_all (view_table fuel)
          (filter (fun be : N * el => is_node (snd be) && is_table_or_array_of_table (ekind_of (snd be))) es) with
  | Some gs, Some ts => Some (FDoc gs ts)
  | _, _ => None
  end.

(** * The shape questions of crates/tombi-ast *)
Definition group_items {V} (g : group (item V)) : list (item V) := match g with GD _ _ => [] | GI _ its => its end.
Definition items_of {V} (gs : list (group (item V))) : list (item V) := flat_map group_items gs.
Definition vtc (v : fval) : option str := match v with FLit _ _ _ tc => tc | FBox _ _ _ _ tc => tc end.
Definition vlead (v : fval) : list str := match v with FLit l _ _ _ => l | FBox _ l _ _ _ => l end.
Definition nonempty {A} (l : list A) : bool := match l with [] => false | _ => true end.
Definition is_some {A} (o : option A) : bool := match o with Some _ => true | None => false end.
Definition exists_item {V} (p : item V -> bool) (gs : list (group (item V))) : bool :=
  existsb (fun g => match g with GD _ _ => false | GI _ its => existsb p its end) gs.
Definition comma_comments (c : option fcomma) : bool :=
  match c with None => false | Some (Comma l tc) => nonempty l || is_some tc end.

(** crates/tombi-ast/src/support/comment.rs:101-122 [has_inner_comments], on the view: a group of comments is
    never empty, and every comment of a value is before it, after it, or one of these. *)
Fixpoint has_comments (v : fval) : bool :=
  match v with
  | FLit lead _ _ tc => nonempty lead || is_some tc
  | FBox _ lead otc gs tc =>
      nonempty lead || is_some tc || is_some otc ||
      existsb (fun g => match g with
        | GD _ _ => true
        | GI _ its => existsb (fun i => match i with Item l _ _ v c => nonempty l || comma_comments c || has_comments v end) its
        end) gs
  end.
Definition has_inner_comments (otc : option str) (gs : list (group (item fval))) : bool :=
  is_some otc ||
  existsb (fun g => match g with
    | GD _ _ => true
    | GI _ its => existsb (fun i => match i with Item l _ _ v c => nonempty l || comma_comments c || has_comments v end) its
    end) gs.
(** crates/tombi-ast/src/impls/inline_table.rs:132-151 [has_direct_inner_comments] *)
Definition has_direct_inner_comments (otc : option str) (gs : list (group (item fval))) : bool :=
  is_some otc ||
  existsb (fun g => match g with
    | GD _ _ => true
    | GI _ its => existsb (fun i => match i with Item l _ _ v c => nonempty l || is_some (vtc v) || comma_comments c end) its
    end) gs.
(** crates/tombi-ast/src/impls/array.rs:104-117 [has_last_value_trailing_comma], and of inline tables: the last
    item of the last group that has one. *)
Definition has_last_comma {V} (gs : list (group (item V))) : bool :=
  match last (map Some (items_of gs)) None with Some (Item _ _ _ _ (Some _)) => true | _ => false end.

(** crates/tombi-ast/src/impls/array.rs:97-152, inline_table.rs:85-130: [should_be_multiline] of a value and
    [has_multiline_values] of its items. *)
Fixpoint value_multiline (ver : toml_version) (v : fval) : bool :=
  match v with
  | FLit _ k tok _ =>
      match k with MULTI_LINE_BASIC_STRING | MULTI_LINE_LITERAL_STRING => contains 10 tok | _ => false end
  | FBox table _ otc gs _ =>
      if table && is_v1_0_0 ver then has_direct_inner_comments otc gs
      else has_last_comma gs
        || existsb (fun g => match g with
             | GD _ _ => true
             | GI _ its => existsb (fun i => match i with Item _ _ _ v _ => value_multiline ver v end) its
             end) gs
        || has_inner_comments otc gs
  end.
(** The dangling groups before the first item are not asked by [has_multiline_values] but by [has_inner_comments]:
    it makes no difference. *)
Definition should_be_multiline (ver : toml_version) (v : fval) : bool :=
  match v with FLit _ _ _ _ => false | FBox _ _ _ _ _ => value_multiline ver v end.

(** * Definitions and state of the formatter *)
(** crates/tombi-formatter/src/formatter/definitions.rs:11-32, with the line ending resolved
    (crates/tombi-formatter/src/formatter.rs:98-102) and the TOML version of the formatter. *)
Record defs := Defs {
  f_line_width : option N; f_line_ending : str; f_group_blank_lines_limit : N; f_table_blank_lines : N;
  f_indent_tab : bool; f_indent_sub_tables : bool; f_indent_table_key_values : bool; f_indent_width : N;
  f_key_quote_style : quote_style; f_string_quote_style : quote_style;
  f_trailing_comment_alignment : bool; f_trailing_comment_space : N;
  f_key_value_equal_alignment : bool; f_key_value_equal_space : N;
  f_date_time_delimiter : delimiter_option; f_array_bracket_space : N; f_array_comma_space : N;
  f_comment_style : comment_style; f_inline_table_brace_space : N; f_inline_table_comma_space : N;
  f_toml_version : toml_version }.
(** crates/tombi-formatter/src/formatter/definitions.rs:35-160 for no options *)
Definition default_defs : defs :=
  Defs None [10] 1 1 false false false 2 Double Double false 2 false 1 DelimT 0 1 Normalize 1 1 V1_0_0.

(** A written piece: the text and, as an annotation that changes nothing, the kind of token it is meant to be. *)
Definition piece := (kind * str)%type.
Definition ptext (ps : list piece) : str := flat_map snd ps.
(** crates/tombi-formatter/src/formatter.rs:16-27 *)
Record fmt := F { f_depth : N; f_skip_indent : bool; f_skip_comment : bool; f_single_line : bool; f_buf : list piece }.
(** A step of the formatter; [None] is a panic. *)
Definition fm := fmt -> option fmt.
Definition m_ret : fm := Some.
Definition m_seq (a b : fm) : fm := fun f => match a f with Some f' => b f' | None => None end.
Notation "a ;; b" := (m_seq a b) (at level 60, right associativity).
Definition m_when (c : bool) (a : fm) : fm := if c then a else m_ret.
Definition m_iter {A} (g : A -> fm) : list A -> fm :=
  fix go (l : list A) : fm := match l with [] => m_ret | a :: l' => g a ;; go l' end.
(** [enumerate]: the first element is told apart *)
Definition m_iter_first {A} (g : bool -> A -> fm) : bool -> list A -> fm :=
  fix go (first : bool) (l : list A) : fm := match l with [] => m_ret | a :: l' => g first a ;; go false l' end.

(** [write!]; nothing is added for an empty blank *)
Definition write (k : kind) (s : str) : fm :=
  fun f => Some (F (f_depth f) (f_skip_indent f) (f_skip_comment f) (f_single_line f)
                   (if nonempty s || negb (kind_eqb k WHITESPACE) then f_buf f ++ [(k, s)] else f_buf f)).
Definition write_opt (k : kind) (s : option str) : fm := match s with Some s => write k s | None => fun _ => None end.
Definition spaces (n : N) : str := repeat 32 (N.to_nat n).
Definition write_spaces (n : N) : fm := write WHITESPACE (spaces n).
Definition set_skip (b : bool) : fm := fun f => Some (F (f_depth f) b (f_skip_comment f) (f_single_line f) (f_buf f)).
Definition set_depth (d : N) : fm := fun f => Some (F d (f_skip_indent f) (f_skip_comment f) (f_single_line f) (f_buf f)).

Section Formatter.
(** [gr] counts the extended grapheme clusters of a text; [dir] is [format_tombi_comment_directive_content]
    (crates/tombi-formatter/src/formatter.rs:202-213), [None] for a panic. *)
Context (cfg : defs) (gr : str -> N) (dir : str -> option str).

(** crates/tombi-formatter/src/formatter.rs:380-383 *)
Definition write_line_ending : fm := write LINE_BREAK (f_line_ending cfg).
(** crates/tombi-formatter/src/formatter.rs:385-388 *)
Definition write_blank_lines (n : N) : fm := m_iter (fun _ => write_line_ending) (repeat tt (S (N.to_nat n))).
(** crates/tombi-formatter/src/formatter.rs:390-396; the product of two [u8] must fit *)
Definition indent (depth : N) : option str :=
  if f_indent_tab cfg then Some (repeat 9 (N.to_nat depth))
  else if f_indent_width cfg * depth <? 256 then Some (spaces (f_indent_width cfg * depth)) else None.
(** crates/tombi-formatter/src/formatter.rs:398-407 *)
Definition write_indent : fm := fun f => if f_skip_indent f then set_skip false f else write_opt WHITESPACE (indent (f_depth f)) f.
(** crates/tombi-formatter/src/formatter.rs:409-417; [u8] *)
Definition inc_indent : fm := fun f => if f_depth f <? 255 then set_depth (f_depth f + 1) f else None.
Definition dec_indent : fm := fun f => set_depth (f_depth f - 1) f.
Definition skip_indent : fm := set_skip true.

(** crates/tombi-formatter/src/formatter.rs:429-437 *)
Definition last_line (s : str) : str := rev (take_while (fun c => negb (N.eqb c 10)) (rev s)).
Definition current_line_width (f : fmt) : N := gr (last_line (ptext (f_buf f))).

(** crates/tombi-formatter/src/types/alignment_width.rs:18-26; [str::lines] *)
Fixpoint split_lines (acc s : str) : list str :=
  match s with
  | [] => match acc with [] => [] | _ => [rev acc] end
  | c :: s' =>
      if N.eqb c 10 then rev (match acc with 13 :: acc' => acc' | _ => acc end) :: split_lines [] s'
      else split_lines (c :: acc) s'
  end.
Definition max_list (l : list N) : option N :=
  match l with [] => None | n :: l' => Some (fold_left N.max l' n) end.
Definition alignment_width (s : str) : option N := max_list (map gr (split_lines [] s)).

(** crates/tombi-formatter/src/formatter.rs:173-200: what a step writes, into an empty buffer.  The indentation
    is put back afterwards, the single-line mode is the caller's. *)
Definition format_to_string (m : fm) (f : fmt) : option str :=
  option_map (fun f' => ptext (f_buf f')) (m (F (f_depth f) (f_skip_indent f) (f_skip_comment f) (f_single_line f) [])).
Definition format_to_string_without_comment (m : fm) (f : fmt) : option str :=
  option_map (fun f' => ptext (f_buf f')) (m (F (f_depth f) (f_skip_indent f) true (f_single_line f) [])).

(** crates/tombi-formatter/src/format/comment.rs:125-194, FormatPieces [format_comment].  The single-line mode is
    switched off after a directive: a directive inside a directive ends it, but nothing follows such a comment. *)
Definition directive_content (comment : str) : option str :=
  match strip_prefix (lit "#:schema ") comment with
  | Some _ => None
  | None => match strip_prefix (lit "#:tombi ") comment with Some c => Some c | None => value_directive comment end
  end.
Definition comment_text (strip : bool) (comment : str) : option str :=
  match f_comment_style cfg with
  | CPreserve => Some comment
  | Normalize =>
      match directive_content comment with
      | Some content =>
          match dir content with
          | Some text => format_comment (fun _ => text) Normalize strip comment
          | None => None
          end
      | None => format_comment (fun s => s) Normalize strip comment
      end
  end.
Definition fmt_comment (strip : bool) (comment : str) : fm := write_opt COMMENT (comment_text strip comment).

(** crates/tombi-formatter/src/format/comment.rs:10-24 *)
Definition fmt_dangling (cs : list str) : fm := fun f =>
  m_when (negb (f_skip_comment f))
    (m_iter_first (fun first c => m_when (negb first) write_line_ending ;; write_indent ;; fmt_comment first c) true cs) f.
(** crates/tombi-formatter/src/format/comment.rs:93-111 *)
Definition fmt_leading (cs : list str) : fm := fun f =>
  m_when (negb (f_skip_comment f))
    (m_iter_first (fun first c => write_indent ;; fmt_comment first c ;; write_line_ending) true cs) f.
(** crates/tombi-formatter/src/format/comment.rs:113-123 *)
Definition fmt_trailing (c : str) : fm := fun f =>
  m_when (negb (f_skip_comment f)) (write_spaces (f_trailing_comment_space cfg) ;; fmt_comment true c) f.
(** crates/tombi-formatter/src/format.rs:49-57 *)
Definition write_alignment_space (al : option N) : fm := fun f =>
  match al with None => Some f | Some w => write_spaces (w - current_line_width f) f end.
Definition fmt_trailing_opt (al : option N) (tc : option str) : fm :=
  match tc with None => m_ret | Some c => write_alignment_space al ;; fmt_trailing c end.

(** crates/tombi-formatter/src/format/comment.rs:48-91: the groups, separated by at most the allowed number of
    blank lines; [fi] writes a group of items. *)
Definition fmt_separator (blank : N) : fm :=
  let n := N.min blank (f_group_blank_lines_limit cfg) in
  if n =? 0 then write_line_ending else write_blank_lines n.
Definition fmt_groups {I} (fi : list I -> fm) : bool -> list (group I) -> fm :=
  fix go (written : bool) (gs : list (group I)) : fm :=
  match gs with
  | [] => m_ret
  | GD b cs :: gs' => fun f =>
      if f_skip_comment f then go written gs' f
      else (m_when written (fmt_separator b) ;; fmt_dangling cs ;; go true gs') f
  | GI b its :: gs' => m_when written (fmt_separator b) ;; fi its ;; go true gs'
  end.

(** crates/tombi-formatter/src/format/key.rs:13-45.  The padding is subtracted from the width of the keys as
    written, which must not be smaller. *)
Definition string_kind (s : str) : kind := match s with 39 :: _ => LITERAL_STRING | _ => BASIC_STRING end.
Definition key_piece (k : fkey) : option piece :=
  match fst k with
  | BASIC_STRING => option_map (fun s => (string_kind s, s)) (format_basic_string_quote_style (snd k) (f_key_quote_style cfg))
  | LITERAL_STRING => option_map (fun s => (string_kind s, s)) (format_literal_string_quote_style (snd k) (f_key_quote_style cfg))
  | _ => Some (BARE_KEY, snd k)
  end.
Definition join_dot (l : list str) : str := match l with [] => [] | s :: l' => s ++ flat_map (fun s => 46 :: s) l' end.
Definition write_piece (p : option piece) : fm := match p with Some (k, s) => write k s | None => fun _ => None end.
Definition write_keys (ks : list fkey) : fm :=
  m_iter_first (fun first k => m_when (negb first) (write DOT [46]) ;; write_piece (key_piece k)) true ks.
Definition fmt_keys (width : option N) (ks : list fkey) : fm := fun f =>
  match width with
  | None => write_keys ks f
  | Some w =>
      match opt_all key_piece ks with
      | None => None
      | Some ps =>
          match alignment_width (join_dot (map snd ps)) with
          | None => None
          | Some n => if w <? n then None else (write_keys ks ;; write_spaces (w - n)) f
          end
      end
  end.

(** crates/tombi-formatter/src/format/value/string.rs, date_time.rs and value.rs:118-145: the text of a literal *)
Definition literal_piece (k : kind) (tok : str) : option piece :=
  match k with
  | BASIC_STRING => option_map (fun s => (string_kind s, s)) (format_basic_string_quote_style tok (f_string_quote_style cfg))
  | LITERAL_STRING => option_map (fun s => (string_kind s, s)) (format_literal_string_quote_style tok (f_string_quote_style cfg))
  | OFFSET_DATE_TIME | LOCAL_DATE_TIME => option_map (fun s => (k, s)) (format_date_time (f_date_time_delimiter cfg) tok)
  | _ => Some (k, tok)
  end.
Definition fmt_literal (al : option N) (lead : list str) (k : kind) (tok : str) (tc : option str) : fm :=
  fmt_leading lead ;; write_indent ;; write_piece (literal_piece k tok) ;; fmt_trailing_opt al tc.

(** crates/tombi-formatter/src/format/key_value.rs:17-45 and, without keys, a value of an array *)
Definition fmt_item (fv : option N -> fval -> fm) (ea al : option N) (i : item fval) : fm :=
  match i with
  | Item _ [] _ v _ => fv al v
  | Item lead ks _ v _ =>
      fmt_leading lead ;; write_indent ;; fmt_keys ea ks ;;
      write_spaces (f_key_value_equal_space cfg) ;; write EQUAL [61] ;; write_spaces (f_key_value_equal_space cfg) ;;
      skip_indent ;; fv al v
  end.

(** crates/tombi-formatter/src/format/value/array.rs:170-196, inline_table.rs:180-206: the comma after an item of
    a multi-line array or inline table *)
Definition fmt_comma (al : option N) (has_tc : bool) (c : option fcomma) : fm :=
  match c with
  | None => m_ret
  | Some (Comma lead tc) =>
      (if nonempty lead then write_line_ending ;; fmt_leading lead ;; write_indent
       else m_when has_tc (write_line_ending ;; write_indent)) ;;
      write COMMA [44] ;; fmt_trailing_opt al tc
  end.
Definition icomma (i : item fval) : option fcomma := match i with Item _ _ _ _ c => c end.
Definition ival (i : item fval) : fval := match i with Item _ _ _ v _ => v end.
Definition ikeys (i : item fval) : list fkey := match i with Item _ ks _ _ _ => ks end.
Definition iraw (i : item fval) : str := match i with Item _ _ raw _ _ => raw end.
(** crates/tombi-formatter/src/format/value/array.rs:151-200, inline_table.rs:159-209 *)
Definition fmt_multi_items (fv : option N -> fval -> fm) (ea al : option N) (its : list (item fval)) : fm :=
  m_iter_first (fun first i =>
    m_when (negb first) write_line_ending ;;
    fmt_item fv ea al i ;; fmt_comma al (match i with Item _ _ _ v _ => is_some (vtc v) end) (icomma i)) true its.

(** crates/tombi-formatter/src/formatter.rs:357-370 *)
Definition key_value_equal_alignment_width (its : list (item fval)) : option (option N) :=
  if f_key_value_equal_alignment cfg then option_map max_list (opt_all (fun i => alignment_width (iraw i)) its)
  else Some None.

Definition open_piece (table : bool) : piece := if table then (BRACE_START, [123]) else (BRACKET_START, [91]).
Definition close_piece (table : bool) : piece := if table then (BRACE_END, [125]) else (BRACKET_END, [93]).
Definition box_space (table : bool) : N := if table then f_inline_table_brace_space cfg else f_array_bracket_space cfg.
Definition comma_space (table : bool) : N := if table then f_inline_table_comma_space cfg else f_array_comma_space cfg.

(** crates/tombi-formatter/src/format/value/array.rs:77-128, inline_table.rs:84-138 *)
Definition fmt_multi (fv : option N -> fval -> fm) (al : option N) (table : bool) (lead : list str) (otc : option str)
    (gs : list (group (item fval))) (tc : option str) : fm :=
  fmt_leading lead ;; write_indent ;; write_piece (Some (open_piece table)) ;; fmt_trailing_opt al otc ;;
  write_line_ending ;; inc_indent ;;
  (if table then
     match key_value_equal_alignment_width (items_of gs) with
     | None => fun _ => None
     | Some ea => fmt_groups (fmt_multi_items fv ea al) false gs
     end
   else fmt_groups (fmt_multi_items fv None al) false gs) ;;
  dec_indent ;; write_line_ending ;; write_indent ;; write_piece (Some (close_piece table)) ;; fmt_trailing_opt al tc.

(** crates/tombi-formatter/src/format/value/array.rs:130-168, inline_table.rs:140-178; the items of every group,
    one after the other *)
Definition fmt_single_items (fv : option N -> fval -> fm) (al : option N) (table : bool) : bool -> list (item fval) -> fm :=
  m_iter_first (fun first i =>
    m_when (negb first) (write COMMA [44] ;; write_spaces (comma_space table)) ;;
    skip_indent ;; fmt_item fv None al i).
Definition fmt_single_groups (fv : option N -> fval -> fm) (al : option N) (table : bool) :
    bool -> list (group (item fval)) -> fm :=
  fix go (first : bool) (gs : list (group (item fval))) : fm :=
  match gs with
  | [] => m_ret
  | GD _ _ :: gs' => go first gs'
  | GI _ its :: gs' => fmt_single_items fv al table first its ;; go (first && negb (nonempty its)) gs'
  end.
Definition fmt_single (fv : option N -> fval -> fm) (al : option N) (table : bool) (lead : list str)
    (gs : list (group (item fval))) (tc : option str) : fm :=
  fmt_leading lead ;; write_indent ;;
  (if nonempty (items_of gs) then
     write_piece (Some (open_piece table)) ;; write_spaces (box_space table) ;;
     fmt_single_groups fv al table true gs ;;
     write_spaces (box_space table) ;; write_piece (Some (close_piece table))
   else write_piece (Some (open_piece table)) ;; write_piece (Some (close_piece table))) ;;
  fmt_trailing_opt al tc.

(** crates/tombi-formatter/src/format/value/array.rs:31-75, inline_table.rs:31-82: the width of the items on one
    line, or [true] when one of them must be split; [ex] and [fv] are this function and the formatter for the items. *)
Definition nested_multiline (ex : fval -> fmt -> option bool) (v : fval) (f : fmt) : option bool :=
  match v with
  | FLit _ _ _ _ => Some false
  | FBox _ _ _ _ _ => if should_be_multiline (f_toml_version cfg) v then Some true else ex v f
  end.
Definition exceeds_items (ex : fval -> fmt -> option bool) (fv : option N -> fval -> fm) (table : bool) (f : fmt) :
    list (item fval) -> N * bool -> option (bool + (N * bool)) :=
  fix go (its : list (item fval)) (acc : N * bool) : option (bool + (N * bool)) :=
  match its with
  | [] => Some (inr acc)
  | i :: its' =>
      match nested_multiline ex (match i with Item _ _ _ v _ => v end) f with
      | None => None
      | Some true => Some (inl true)
      | Some false =>
          match format_to_string (fmt_item fv None None i) f with
          | None => None
          | Some s => go its' (fst acc + (if snd acc then 0 else 1 + comma_space table) + gr s, false)
          end
      end
  end.
Definition exceeds_groups (ex : fval -> fmt -> option bool) (fv : option N -> fval -> fm) (table : bool) (f : fmt) :
    list (group (item fval)) -> N * bool -> option (bool + (N * bool)) :=
  fix go (gs : list (group (item fval))) (acc : N * bool) : option (bool + (N * bool)) :=
  match gs with
  | [] => Some (inr acc)
  | GD _ _ :: gs' => go gs' acc
  | GI _ its :: gs' =>
      match exceeds_items ex fv table f its acc with
      | Some (inr acc') => go gs' acc'
      | r => r
      end
  end.
Definition exceeds (ex : fval -> fmt -> option bool) (fv : option N -> fval -> fm) (table : bool)
    (gs : list (group (item fval))) (tc : option str) (f : fmt) : option bool :=
  if table && is_v1_0_0 (f_toml_version cfg) then Some false
  else
    match exceeds_groups ex fv table f gs (current_line_width f + 2 + 2 * box_space table, true) with
    | None => None
    | Some (inl b) => Some b
    | Some (inr (n, _)) =>
        match (match tc with
               | None => Some 0
               | Some c => option_map (fun s => f_trailing_comment_space cfg + gr s) (format_to_string (fmt_trailing c) f)
               end) with
        | None => None
        | Some m => Some (match f_line_width cfg with Some w => w <? n + m | None => false end)
        end
    end.

(** crates/tombi-formatter/src/format/value.rs, value/array.rs:16-29, value/inline_table.rs:17-29 *)
Fixpoint fmt_value (al : option N) (v : fval) {struct v} : fm :=
  match v with
  | FLit lead k tok tc => fmt_literal al lead k tok tc
  | FBox table lead otc gs tc => fun f =>
      match (if f_single_line f then Some false
             else if should_be_multiline (f_toml_version cfg) (FBox table lead otc gs tc) then Some true
             else exceeds exceeds_line_width fmt_value table gs tc f) with
      | None => None
      | Some true => fmt_multi fmt_value al table lead otc gs tc f
      | Some false => fmt_single fmt_value al table lead gs tc f
      end
  end
with exceeds_line_width (v : fval) {struct v} : fmt -> option bool :=
  match v with
  | FLit _ _ _ _ => fun _ => Some false
  | FBox table _ _ gs tc => exceeds exceeds_line_width fmt_value table gs tc
  end.

(** crates/tombi-formatter/src/formatter.rs:265-291 *)
Definition trailing_comment_alignment_width (ea : option N) (its : list (item fval)) (f : fmt) : option (option N) :=
  if f_trailing_comment_alignment cfg then
    option_map max_list (opt_all (fun i =>
      match format_to_string_without_comment (fmt_item fmt_value ea None i) f with
      | Some s => alignment_width s
      | None => None
      end) its)
  else Some None.

(** crates/tombi-formatter/src/format/key_value.rs:47-114: the comma between two lines is only kept for its
    comments *)
Definition fmt_line_comma (al : option N) (has_tc : bool) (c : option fcomma) : fm :=
  match c with
  | None => m_ret
  | Some (Comma lead tc) =>
      match tc with
      | Some c =>
          if negb (nonempty lead) && negb has_tc then fmt_trailing_opt al (Some c)
          else write_line_ending ;; m_when (nonempty lead) (fmt_leading lead) ;; write_indent ;; write COMMA [44] ;;
               fmt_trailing_opt al (Some c)
      | None => m_when (nonempty lead) (write_line_ending ;; fmt_leading lead ;; write_indent ;; write COMMA [44])
      end
  end.
Definition fmt_key_value_group (its : list (item fval)) : fm := fun f =>
  match key_value_equal_alignment_width its with
  | None => None
  | Some ea =>
      match trailing_comment_alignment_width ea its f with
      | None => None
      | Some al =>
          m_iter_first (fun first i =>
            m_when (negb first) write_line_ending ;;
            fmt_item fmt_value ea al i ;; fmt_line_comma al (is_some (vtc (ival i))) (icomma i)) true its f
      end
  end.

(** [Key::try_to_raw_text] and [to_raw_text] (crates/tombi-ast/src/impls/key.rs:22-41) *)
Definition key_raw_text (ver : toml_version) (k : fkey) : option str :=
  match (match fst k with
         | BASIC_STRING => try_from_basic_string (snd k) ver
         | LITERAL_STRING => try_from_literal_string (snd k)
         | _ => try_from_bare_key (snd k)
         end) with
  | DOk s => Some s
  | _ => None
  end.
Definition key_text_or_source (ver : toml_version) (k : fkey) : str :=
  match key_raw_text ver k with Some s => s | None => snd k end.
Definition same_key (ver : toml_version) (a b : fkey) : bool :=
  match key_raw_text ver a, key_raw_text ver b with Some a, Some b => str_eqb a b | _, _ => false end.
(** crates/tombi-ast/src/impls/key.rs:72-90; [TomlVersion::latest()] *)
Fixpoint keys_start_with (a b : list fkey) : bool :=
  match a, b with
  | _, [] => true
  | [], _ :: _ => false
  | x :: a', y :: b' => same_key V1_1_0 x y && keys_start_with a' b'
  end.
Definition keys_same_as (a b : list fkey) : bool := Nat.eqb (length a) (length b) && keys_start_with a b.

(** crates/tombi-ast/src/impls/table.rs:121-149 [parent_table_or_array_of_table_keys] with the headers before,
    the nearest first, and crates/tombi-formatter/src/format.rs:59-74 [filter_map_unique_keys]: only their
    number counts. *)
Definition same_first (ver : toml_version) (a b : list fkey) : bool :=
  match a, b with x :: _, y :: _ => same_key ver x y | _, _ => false end.
Fixpoint uniques (seen : list (list str)) (l : list (list str)) : nat :=
  match l with
  | [] => O
  | k :: l' =>
      if existsb (fun s => (Nat.eqb (length s) (length k)) && forallb (fun ab => str_eqb (fst ab) (snd ab)) (combine s k)) seen
      then uniques seen l' else S (uniques (k :: seen) l')
  end.
Definition sub_table_depth (before : list (list fkey)) (ks : list fkey) : nat :=
  uniques [] (map (map (key_text_or_source (f_toml_version cfg)))
    (filter (fun k => Nat.ltb (length k) (length ks))
      (filter (fun k => keys_start_with ks k) (take_while (same_first (f_toml_version cfg) ks) before)))).

(** crates/tombi-formatter/src/format/table.rs:8-59, array_of_table.rs:8-59 *)
Definition fmt_table (before : list (list fkey)) (t : ftable) : fm :=
  let depth := if f_indent_sub_tables cfg then sub_table_depth before (t_keys t) else O in
  m_iter (fun _ => inc_indent) (repeat tt depth) ;;
  fmt_leading (t_lead t) ;; write_indent ;;
  write BRACKET_START [91] ;; m_when (t_array t) (write BRACKET_START [91]) ;;
  fmt_keys None (t_keys t) ;;
  write BRACKET_END [93] ;; m_when (t_array t) (write BRACKET_END [93]) ;;
  fmt_trailing_opt None (t_tc t) ;;
  m_when (f_indent_table_key_values cfg) inc_indent ;;
  m_when (nonempty (t_groups t)) (write_line_ending ;; fmt_groups fmt_key_value_group false (t_groups t)) ;;
  m_when (f_indent_table_key_values cfg) dec_indent ;;
  m_iter (fun _ => dec_indent) (repeat tt depth).

Definition starts_dangling {I} (gs : list (group I)) : bool := match gs with GD _ _ :: _ => true | _ => false end.
Definition no_items {I} (gs : list (group I)) : bool := forallb (fun g => match g with GD _ _ => true | GI _ _ => false end) gs.
(** crates/tombi-formatter/src/format/root.rs:60-145: is there a gap between the table before and this one *)
Definition table_gap (prev t : ftable) : bool :=
  nonempty (items_of (t_groups prev)) || negb (keys_start_with (t_keys t) (t_keys prev)) || starts_dangling (t_groups prev)
  || (if t_array prev && t_array t then keys_same_as (t_keys prev) (t_keys t) else nonempty (t_lead t)).
Fixpoint fmt_tables (prev : option ftable) (before : list (list fkey)) (ts : list ftable) : fm :=
  match ts with
  | [] => m_ret
  | t :: ts' =>
      (match prev with
       | None => m_ret
       | Some p =>
           write_line_ending ;;
           m_when (table_gap p t) (m_iter (fun _ => write_line_ending) (repeat tt (N.to_nat (f_table_blank_lines cfg))))
       end) ;;
      fmt_table before t ;; fmt_tables (Some t) (t_keys t :: before) ts'
  end.

(** crates/tombi-formatter/src/format/root.rs:8-46 *)
Definition fmt_root (d : fdoc) : fm :=
  set_depth 0 ;;
  fmt_groups fmt_key_value_group false (d_groups d) ;;
  match d_tables d with
  | [] => m_ret
  | t :: _ =>
      m_when (nonempty (d_groups d))
        (if no_items (d_groups d) then write_blank_lines (N.min (t_blank t) (f_group_blank_lines_limit cfg))
         else write_blank_lines (f_table_blank_lines cfg))
  end ;;
  fmt_tables None [] (d_tables d).
End Formatter.

(** * The editor, without a schema *)
(** crates/tombi-ast-editor/src/rule/array_comma_trailing_comment.rs:9-54, inline_table_comma_trailing_comment.rs:9-54.
    A trailing comment is a comma's when the item has one and there is no other comment at the comma. *)
Definition without_tc (v : fval) : fval :=
  match v with
  | FLit lead k tok _ => FLit lead k tok None
  | FBox table lead otc gs _ => FBox table lead otc gs None
  end.
Definition edit_comma (append_missing : bool) (i : item fval) : item fval :=
  match i with
  | Item lead ks raw v c =>
      match c with
      | Some (Comma [] None) =>
          match vtc v with Some c => Item lead ks raw (without_tc v) (Some (Comma [] (Some c))) | None => i end
      | None =>
          if append_missing then Item lead ks raw (without_tc v) (Some (Comma [] (vtc v))) else i
      | _ => i
      end
  end.
(** crates/tombi-ast-editor/src/edit/array.rs:40-83, inline_table.rs:24-52 and value.rs: every array and inline table
    of the document; in the code, those that the document tree leads to.  [n] items are still to come. *)
Definition edit_items (ev : fval -> fval) (last_comma : bool) : nat -> list (item fval) -> list (item fval) :=
  fix go (n : nat) (its : list (item fval)) : list (item fval) :=
  match its with
  | [] => []
  | Item lead ks raw v c :: its' =>
      edit_comma (last_comma || negb (Nat.eqb n 1)) (Item lead ks raw (ev v) c) :: go (pred n) its'
  end.
Definition edit_box (ev : fval -> fval) (last_comma : bool) : nat -> list (group (item fval)) -> list (group (item fval)) :=
  fix go (n : nat) (gs : list (group (item fval))) : list (group (item fval)) :=
  match gs with
  | [] => []
  | GD b cs :: gs' => GD b cs :: go n gs'
  | GI b its :: gs' => GI b (edit_items ev last_comma n its) :: go (n - length its)%nat gs'
  end.
Fixpoint edit_value (v : fval) : fval :=
  match v with
  | FLit _ _ _ _ => v
  | FBox table lead otc gs tc => FBox table lead otc (edit_box edit_value (has_last_comma gs) (length (items_of gs)) gs) tc
  end.
Definition edit_group (g : group (item fval)) : group (item fval) :=
  match g with
  | GD b cs => GD b cs
  | GI b its => GI b (map (fun i => match i with Item lead ks raw v c => Item lead ks raw (edit_value v) c end) its)
  end.

(** crates/tombi-ast-editor/src/edit/root.rs:40-76: document directives before the first item go to the top, with
    all the comments before it. *)
Definition document_directive (c : str) : bool :=
  is_some (strip_prefix (lit "#:schema ") c) || is_some (strip_prefix (lit "#:tombi ") c).
Definition move_directives (d : fdoc) : fdoc :=
  if starts_dangling (d_groups d) then d
  else
    match d_groups d with
    | GI b (Item lead ks raw v c :: its) :: gs =>
        if existsb document_directive lead
        then FDoc (GD 0 lead :: GI 1 (Item [] ks raw v c :: its) :: gs) (d_tables d)
        else d
    | [] =>
        match d_tables d with
        | FTable a lead ks tc gs b :: ts =>
            if existsb document_directive lead
            then FDoc [GD 0 lead] (FTable a [] ks tc gs 1 :: ts)
            else d
        | [] => d
        end
    | _ => d
    end.
Definition edit_root (d : fdoc) : fdoc :=
  let d := FDoc (map edit_group (d_groups d))
             (map (fun t => FTable (t_array t) (t_lead t) (t_keys t) (t_tc t) (map edit_group (t_groups t)) (t_blank t)) (d_tables d)) in
  move_directives d.

(** * The whole *)
Definition initial (single : bool) : fmt := F 0 false false single [].
Fixpoint height (t : tree) : nat :=
  match t with
  | TToken _ _ => 1
  | TNode _ cs => S ((fix go (l : list tree) : nat := match l with [] => O | c :: l' => Nat.max (height c) (go l') end) cs)
  end.
(** crates/tombi-lexer/src/lib.rs:198-213: a [\r\n] outside of a string makes the line ending [\r\n]. *)
Fixpoint has_crlf (t : tree) : bool :=
  match t with
  | TToken k s => kind_eqb k LINE_BREAK && contains 13 s
  | TNode _ cs => existsb has_crlf cs
  end.

(** The result of parsing and viewing a text: [Done None] for a text with errors. *)
Definition read (seg : str -> list str) (stack : nat) (source : str) : res (option (bool * fdoc)) :=
  match parse seg stack source with
  | Done (t, []) =>
      match view_root (height t) (El [] t) with
      | Some d => Done (Some (has_crlf t, d))
      | None => Panic
      end
  | Done (_, _ :: _) => Done None
  | Panic => Panic
  | Diverge => Diverge
  | Deep => Deep
  end.

(** crates/tombi-formatter/src/formatter.rs:202-213; the content of a directive inside a directive is shorter, so
    that [fuel] never ends when it is the length of the text.  Where the parser does not answer, neither does this. *)
Fixpoint directive (fuel : nat) (cfg : defs) (gr : str -> N) (seg : str -> list str) (stack : nat) (content : str) : option str :=
  match fuel with
  | O => None
  | S n =>
      match read seg stack content with
      | Done None => Some (trim content)
      | Done (Some (_, d)) =>
          option_map (fun f => ptext (f_buf f)) (fmt_root cfg gr (directive n cfg gr seg stack) d (initial true))
      | _ => None
      end
  end.

(** crates/tombi-config/src/types/line_ending.rs *)
Inductive line_ending_option := LEAuto | LELf | LECrlf.
Definition with_line_ending (cfg : defs) (s : str) : defs :=
  Defs (f_line_width cfg) s (f_group_blank_lines_limit cfg) (f_table_blank_lines cfg) (f_indent_tab cfg)
    (f_indent_sub_tables cfg) (f_indent_table_key_values cfg) (f_indent_width cfg) (f_key_quote_style cfg)
    (f_string_quote_style cfg) (f_trailing_comment_alignment cfg) (f_trailing_comment_space cfg)
    (f_key_value_equal_alignment cfg) (f_key_value_equal_space cfg) (f_date_time_delimiter cfg)
    (f_array_bracket_space cfg) (f_array_comma_space cfg) (f_comment_style cfg) (f_inline_table_brace_space cfg)
    (f_inline_table_comma_space cfg) (f_toml_version cfg).
Definition line_ending_text (o : line_ending_option) (crlf : bool) : str :=
  match o with LEAuto => if crlf then [13; 10] else [10] | LELf => [10] | LECrlf => [13; 10] end.

(** crates/tombi-formatter/src/formatter.rs:50-170 without a schema and without [format.disabled]; [edited] says
    whether the document tree could be made, without which the editor leaves the document alone
    (crates/tombi-ast-editor/src/editor.rs:36-43).  [Done None]: the text has errors and is left alone. *)
Definition format_pieces (cfg : defs) (gr : str -> N) (dir : str -> option str) (edited : bool) (d : fdoc) : option (list piece) :=
  match fmt_root cfg gr dir (if edited then edit_root d else d) (initial false) with
  | None => None
  | Some f => Some (if nonempty (f_buf f) then f_buf f ++ [(LINE_BREAK, f_line_ending cfg)] else [])
  end.
Definition format_source (cfg : defs) (le : line_ending_option) (gr : str -> N) (seg : str -> list str) (stack : nat)
    (edited : bool) (source : str) : res (option str) :=
  match read seg stack source with
  | Done None => Done None
  | Done (Some (crlf, d)) =>
      let cfg := with_line_ending cfg (line_ending_text le crlf) in
      match format_pieces cfg gr (directive (S (length source)) cfg gr seg stack) edited d with
      | Some ps => Done (Some (ptext ps))
      | None => Panic
      end
  | Panic => Panic
  | Diverge => Diverge
  | Deep => Deep
  end.
