(** The grammar of TOML over the kinds of the tokens that are not blanks: toml.abnf of TOML 1.0.0 and of 1.1.0, in which inline tables may
    contain line breaks and comments and end with a comma. *)
From Coq Require Import List Bool.
From Verif Require Import SyntaxKind ParserModel TomlTextModel.
Import ListNotations.
Open Scope list_scope.

(** ws-comment-newline: line breaks, and comments that end with one *)
Inductive gap : list kind -> Prop :=
| gap_none : gap []
| gap_break G : gap G -> gap (LINE_BREAK :: G)
| gap_comment G : gap G -> gap (COMMENT :: LINE_BREAK :: G).
(** key: simple keys with dots between them *)
Inductive simple_key : kind -> Prop := sk_bare : simple_key BARE_KEY | sk_basic : simple_key BASIC_STRING | sk_literal : simple_key LITERAL_STRING.
Inductive key : list kind -> Prop :=
| key_one k : simple_key k -> key [k]
| key_dotted k K : simple_key k -> key K -> key (k :: DOT :: K).
(** val, but arrays and inline tables *)
Definition scalar (k : kind) : bool :=
  match k with
  | BASIC_STRING | MULTI_LINE_BASIC_STRING | LITERAL_STRING | MULTI_LINE_LITERAL_STRING | INTEGER_DEC | INTEGER_BIN | INTEGER_OCT | INTEGER_HEX
  | FLOAT | BOOLEAN | OFFSET_DATE_TIME | LOCAL_DATE_TIME | LOCAL_DATE | LOCAL_TIME => true
  | _ => false
  end.
Section Version.
Context (v : toml_version).
(** In TOML 1.0.0 there are only blanks between the parts of an inline table. *)
Definition single_line (table : bool) : bool := table && match v with V1_0_0 => true | _ => false end.
Definition room (table : bool) (G : list kind) : Prop := if single_line table then G = [] else gap G.
(** val; [element true]: keyval; [elements]: what stands between the brackets, or the braces *)
Inductive value : list kind -> Prop :=
| v_scalar k : scalar k = true -> value [k]
| v_array B : elements false B -> value (BRACKET_START :: B ++ [BRACKET_END])
| v_inline B : elements true B -> value (BRACE_START :: B ++ [BRACE_END])
with element : bool -> list kind -> Prop :=
| e_value K : value K -> element false K
| e_pair Ks K : key Ks -> value K -> element true (Ks ++ EQUAL :: K)
with elements : bool -> list kind -> Prop :=
| es_none table G : room table G -> elements table G
| es_last table G E G' : room table G -> element table E -> room table G' -> elements table (G ++ E ++ G')
| es_comma table G E G' B : room table G -> element table E -> room table G' -> elements table B -> (single_line table = true -> B <> []) ->
    elements table (G ++ E ++ G' ++ COMMA :: B).
(** expression, without its comment *)
Inductive expression : list kind -> Prop :=
| x_nothing : expression []
| x_pair E : element true E -> expression E
| x_table Ks : key Ks -> expression (BRACKET_START :: Ks ++ [BRACKET_END])
| x_array_table Ks : key Ks -> expression (DOUBLE_BRACKET_START :: Ks ++ [DOUBLE_BRACKET_END]).
Inductive comment : list kind -> Prop := c_none : comment [] | c_some : comment [COMMENT].
(** toml: expressions with line breaks between them *)
Inductive document : list kind -> Prop :=
| d_last E C : expression E -> comment C -> document (E ++ C)
| d_line E C D : expression E -> comment C -> document D -> document (E ++ C ++ LINE_BREAK :: D).
End Version.

(** The kinds of the tokens of a tree that are not blanks, from left to right *)
Fixpoint token_kinds (t : tree) : list kind :=
  match t with
  | TToken k _ => match k with WHITESPACE => [] | _ => [k] end
  | TNode _ cs => flat_map token_kinds cs
  end.
