(** What should be highlighted in a document. *)
From Coq Require Import String Ascii List NArith Bool Arith.
From Verif Require Import Base SyntaxKind TextModel LexerModel ParserModel TomlTextModel AstModel FormatterModel HighlightModel.
Import ListNotations.
Open Scope N_scope.
Open Scope list_scope.

(** Where a token stands: directly in a table's header, in the keys of a header, in other keys, elsewhere *)
Inductive where_ := InHeader | InHeaderKeys | InKeys | Elsewhere.
Definition enter (w : where_) (k : kind) : where_ :=
  match k, w with
  | (TABLE | ARRAY_OF_TABLE), _ => InHeader
  | KEYS, InHeader => InHeaderKeys
  | KEYS, _ => InKeys
  | _, InHeader => Elsewhere
  | _, _ => w
  end.
(** How a token is highlighted: comments everywhere, the brackets and keys of headers, keys, equals signs, literals; nothing else *)
Definition highlighted (w : where_) (k : kind) : option token_type :=
  match k, w with
  | COMMENT, _ => Some CommentType
  | EQUAL, _ => Some OperatorType
  | (BRACKET_START | BRACKET_END | DOUBLE_BRACKET_START | DOUBLE_BRACKET_END), InHeader => Some OperatorType
  | (BARE_KEY | BASIC_STRING | LITERAL_STRING), InHeaderKeys => Some TableType
  | (BARE_KEY | BASIC_STRING | LITERAL_STRING), InKeys => Some KeyType
  | (BASIC_STRING | LITERAL_STRING | MULTI_LINE_BASIC_STRING | MULTI_LINE_LITERAL_STRING), Elsewhere => Some StringType
  | (INTEGER_BIN | INTEGER_OCT | INTEGER_DEC | INTEGER_HEX | FLOAT), Elsewhere => Some NumberType
  | BOOLEAN, Elsewhere => Some BooleanType
  | OFFSET_DATE_TIME, Elsewhere => Some OffsetDateTimeType
  | LOCAL_DATE_TIME, Elsewhere => Some LocalDateTimeType
  | LOCAL_DATE, Elsewhere => Some LocalDateType
  | LOCAL_TIME, Elsewhere => Some LocalTimeType
  | _, _ => None
  end.
(** What is seen of a highlighted token: how, its kind and its text.  The text of brackets and equals signs is that of their kind. *)
Notation sight := (token_type * kind * str)%type.
Definition see (ty : token_type) (k : kind) (w : str) : sight := (ty, k, match ty with OperatorType => [] | _ => w end).
(** The tokens of a tree from left to right, those that are to be highlighted.  [commas] says whether to look into commas between the
    key/values of a table, which are no TOML. *)
Fixpoint sights (commas : bool) (w : where_) (t : tree) : list sight :=
  match t with
  | TToken k s => match highlighted w k with Some ty => [see ty k s] | None => [] end
  | TNode k cs =>
      flat_map (fun c =>
        match k, c with
        | KEY_VALUE_GROUP, TNode COMMA _ => if commas then sights commas (enter w k) c else []
        | _, _ => sights commas (enter w k) c
        end) cs
  end.
(** The text of a tree without blanks *)
Fixpoint solid_text (t : tree) : str :=
  match t with TToken WHITESPACE _ => [] | TToken _ w => w | TNode _ cs => flat_map solid_text cs end.
(** What is seen of what is handed to the builder *)
Definition seen (m : token_type * el) : sight := see (fst m) (ekind_of (snd m)) (solid_text (it (snd m))).
(** No comma stands behind a key/value of a table. *)
Fixpoint no_line_commas (t : tree) : bool :=
  match t with
  | TToken _ _ => true
  | TNode k cs => forallb (fun c => match k, c with KEY_VALUE_GROUP, TNode COMMA _ => false | _, _ => no_line_commas c end) cs
  end.
