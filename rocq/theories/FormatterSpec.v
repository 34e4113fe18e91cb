(** What formatting a document must keep, stated on the pieces that are written. *)
From Coq Require Import String Ascii List NArith Bool.
From Verif Require Import Base SyntaxKind TextModel LexerModel LexerSpec LexSound TomlTextModel FormatPieces FormatPiecesProofs FormatPiecesProps
  FormatterModel.
Import ListNotations.
Open Scope N_scope.
Open Scope list_scope.

(** * The content of a document: its tokens and comments, in order, without commas *)
Definition comment_piece (c : str) : piece := (COMMENT, c).
Definition opt_comment (c : option str) : list piece := match c with Some c => [comment_piece c] | None => [] end.
Fixpoint keys_content (ks : list fkey) : list piece :=
  match ks with [] => [] | [k] => [k] | k :: ks' => k :: (DOT, [46]) :: keys_content ks' end.
Definition comma_content (c : option fcomma) : list piece :=
  match c with None => [] | Some (Comma lead tc) => map comment_piece lead ++ opt_comment tc end.
Definition item_content (f : fval -> list piece) (i : item fval) : list piece :=
  match i with
  | Item lead [] _ v c => map comment_piece lead ++ f v ++ comma_content c
  | Item lead ks _ v c => map comment_piece lead ++ keys_content ks ++ [(EQUAL, [61])] ++ f v ++ comma_content c
  end.
Definition opening (table : bool) : piece := if table then (BRACE_START, [123]) else (BRACKET_START, [91]).
Definition closing (table : bool) : piece := if table then (BRACE_END, [125]) else (BRACKET_END, [93]).
Fixpoint value_content (v : fval) : list piece :=
  match v with
  | FLit lead k tok tc => map comment_piece lead ++ [(k, tok)] ++ opt_comment tc
  | FBox table lead otc gs tc =>
      map comment_piece lead ++ [opening table] ++ opt_comment otc ++
      flat_map (fun g => match g with
        | GD _ cs => map comment_piece cs
        | GI _ its => flat_map (fun i => match i with Item l ks r v c => item_content (fun _ => value_content v) (Item l ks r v c) end) its
        end) gs ++
      [closing table] ++ opt_comment tc
  end.
Definition group_content (g : group (item fval)) : list piece :=
  match g with GD _ cs => map comment_piece cs | GI _ its => flat_map (item_content value_content) its end.
Definition table_content (t : ftable) : list piece :=
  map comment_piece (t_lead t) ++ (if t_array t then [opening false; opening false] else [opening false]) ++ keys_content (t_keys t) ++
  (if t_array t then [closing false; closing false] else [closing false]) ++ opt_comment (t_tc t) ++ flat_map group_content (t_groups t).
Definition doc_content (d : fdoc) : list piece := flat_map group_content (d_groups d) ++ flat_map table_content (d_tables d).

(** A piece that is neither a blank nor a line break nor a comma *)
Definition is_content (p : piece) : bool :=
  match fst p with WHITESPACE | LINE_BREAK | COMMA => false | _ => true end.

(** * When two tokens say the same *)
Definition squeeze (s : str) : str := filter (fun c => negb (is_unicode_whitespace c)) s.
Definition date_time_delimiter (c : char) : Prop := c = 84 \/ c = 116 \/ c = 32.
(** A comment stays a comment and keeps its text but for white space, unless it is a directive; a one-line string keeps
    its value, in every version of TOML; a date-time at most changes its delimiter; everything else is untouched. *)
Definition same_token (p q : piece) : Prop :=
  match fst p with
  | COMMENT => fst q = COMMENT /\ is_comment (snd q) /\ (~ tombi_directive (snd p) -> squeeze (snd q) = squeeze (snd p))
  | BASIC_STRING | LITERAL_STRING =>
      (fst q = BASIC_STRING \/ fst q = LITERAL_STRING) /\ text_ok (fst q) (snd q) /\
      forall v, string_value (fst q) (snd q) v = string_value (fst p) (snd p) v
  | OFFSET_DATE_TIME | LOCAL_DATE_TIME =>
      fst q = fst p /\ exists a c c' b, snd p = a ++ [c] ++ b /\ snd q = a ++ [c'] ++ b /\ length a = 10%nat /\
        date_time_delimiter c /\ date_time_delimiter c'
  | _ => q = p
  end.

(** The tokens of the document are tokens; a bare key may be any token that can stand for one. *)
Definition good_token (p : piece) : Prop := fst p = BARE_KEY \/ text_ok (fst p) (snd p).
Definition good_tokens (ps : list piece) : Prop := Forall good_token ps.

(** * The tokens of a text *)
Definition source_pieces (seg : str -> list str) (source : str) : list piece :=
  match lex seg source with
  | Some l => map (fun t => (tkind t, match slice source (tspan t) with Some w => w | None => [] end)) (tokens l)
  | None => []
  end.
(** The tokens of a text that are content: without white space, line breaks, commas and the end of the text. *)
Definition source_content (seg : str -> list str) (source : str) : list piece :=
  filter (fun p => is_content p && negb (kind_eqb (fst p) EOF)) (source_pieces seg source).
(** A token of the text is a token of the document.  A number, boolean or date may be a key, with its text; what is
    written like a float with a dot is then two keys and the dot. *)
Definition key_like (k : kind) : Prop := In k [INTEGER_DEC; INTEGER_BIN; INTEGER_OCT; INTEGER_HEX; FLOAT; BOOLEAN; LOCAL_DATE].
Inductive reading : list piece -> list piece -> Prop :=
| reading_nil : reading [] []
| reading_same p ps qs : reading ps qs -> reading (p :: ps) (p :: qs)
| reading_key k w ps qs : key_like k -> (k = FLOAT -> ~ In 46 w) -> reading ps qs -> reading ((k, w) :: ps) ((BARE_KEY, w) :: qs)
| reading_keys u v ps qs : ~ In 46 u -> ~ In 46 v -> reading ps qs ->
    reading ((FLOAT, u ++ [46] ++ v) :: ps) ((BARE_KEY, u) :: (DOT, [46]) :: (BARE_KEY, v) :: qs).

(** * Comments end their lines *)
(** Nothing but a line break follows a comment. *)
Definition comments_end_lines (ps : list piece) : Prop :=
  forall a c b, ps = a ++ (COMMENT, c) :: b -> b = [] \/ exists s b', b = (LINE_BREAK, s) :: b'.

(** * Commas *)
(** The tokens of a document, without comments: one comma between two items, and one after the last where the
    document has one. *)
Section Spelling.
Context (same : piece -> piece -> Prop).
Inductive spell_keys : list fkey -> list piece -> Prop :=
| sk_one k p : same k p -> spell_keys [k] [p]
| sk_more k p ks ps : same k p -> spell_keys ks ps -> spell_keys (k :: ks) (p :: (DOT, [46]) :: ps).
Inductive spell_value : fval -> list piece -> Prop :=
| sv_literal lead k tok tc p : same (k, tok) p -> spell_value (FLit lead k tok tc) [p]
| sv_box table lead otc gs tc ps : spell_items (has_last_comma gs) (items_of gs) ps ->
    spell_value (FBox table lead otc gs tc) (opening table :: ps ++ [closing table])
with spell_item : item fval -> list piece -> Prop :=
| si_value lead raw v c ps : spell_value v ps -> spell_item (Item lead [] raw v c) ps
| si_key_value lead ks raw v c pk ps : spell_keys ks pk -> spell_value v ps -> spell_item (Item lead ks raw v c) (pk ++ (EQUAL, [61]) :: ps)
with spell_items : bool -> list (item fval) -> list piece -> Prop :=
| sis_none b : spell_items b [] []
| sis_last b i ps : spell_item i ps -> spell_items b [i] ps
| sis_trailing i ps : spell_item i ps -> spell_items true [i] (ps ++ [(COMMA, [44])])
| sis_more b i j its ps qs : spell_item i ps -> spell_items b (j :: its) qs -> spell_items b (i :: j :: its) (ps ++ (COMMA, [44]) :: qs).
Inductive spell_lines : list (item fval) -> list piece -> Prop :=
| sl_nil : spell_lines [] []
| sl_cons i its ps qs : spell_item i ps -> spell_lines its qs -> spell_lines (i :: its) (ps ++ qs).
Inductive spell_tables : list ftable -> list piece -> Prop :=
| st_nil : spell_tables [] []
| st_cons t ts pk ps qs : spell_keys (t_keys t) pk -> spell_lines (items_of (t_groups t)) ps -> spell_tables ts qs ->
    spell_tables (t :: ts)
      ((if t_array t then [opening false; opening false] else [opening false]) ++ pk ++
       (if t_array t then [closing false; closing false] else [closing false]) ++ ps ++ qs).
Definition spell_doc (d : fdoc) (ps : list piece) : Prop :=
  exists a b, ps = a ++ b /\ spell_lines (items_of (d_groups d)) a /\ spell_tables (d_tables d) b.
End Spelling.
Definition is_token (p : piece) : bool := match fst p with WHITESPACE | LINE_BREAK | COMMENT => false | _ => true end.

(** A comma after every item of an array or inline table but the last *)
Fixpoint commas (its : list (item fval)) : bool :=
  match its with
  | [] | [_] => true
  | Item _ _ _ _ c :: its' => is_some c && commas its'
  end.
Fixpoint all_commas (v : fval) : bool :=
  match v with
  | FLit _ _ _ _ => true
  | FBox _ _ _ gs _ =>
      commas (items_of gs) &&
      forallb (fun g => match g with GD _ _ => true | GI _ its => forallb (fun i => match i with Item _ _ _ v _ => all_commas v end) its end) gs
  end.
(** No comma after a key/value of a table or of the root *)
Definition plain_line (i : item fval) : bool := match i with Item _ _ _ v c => negb (is_some c) && all_commas v end.
Definition plain_lines (d : fdoc) : bool :=
  forallb plain_line (items_of (d_groups d)) && forallb (fun t => forallb plain_line (items_of (t_groups t))) (d_tables d).
