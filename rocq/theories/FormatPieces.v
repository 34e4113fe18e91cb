(** Model of the parts of crates/tombi-formatter that rewrite single tokens: definitions only. *)
From Coq Require Import String Ascii List NArith Bool.
From Verif Require Import Base SyntaxKind TextModel LexerModel LexerSpec TomlTextModel.
Import ListNotations.
Open Scope N_scope.
Open Scope list_scope.

(** * Strings *)
(** crates/tombi-config/src/types/string_quote_style.rs:6-16 *)
Inductive quote_style := Double | Single | QPreserve.

Definition contains (c : char) (s : str) : bool := existsb (N.eqb c) s.

(** crates/tombi-formatter/src/format.rs:27-33; [None] when the slice [&text[1..text.len() - 1]] panics. *)
Definition requote_string (text : str) (quote : char) : option str :=
  if contains 92 text || contains quote text then Some text
  else option_map (fun body => [quote] ++ body ++ [quote]) (strip 1 text).

(** crates/tombi-formatter/src/format.rs:35-40 *)
Definition format_basic_string_quote_style (text : str) (q : quote_style) : option str :=
  match q with
  | Double | QPreserve => Some text
  | Single => requote_string text 39
  end.
(** crates/tombi-formatter/src/format.rs:42-47 *)
Definition format_literal_string_quote_style (text : str) (q : quote_style) : option str :=
  match q with
  | Single | QPreserve => Some text
  | Double => requote_string text 34
  end.

(** * Comments *)
(** crates/tombi-config/src/types/comment_style.rs:6-13 *)
Inductive comment_style := Normalize | CPreserve.

(** [u8::is_ascii_whitespace], used by [str::trim_ascii_end] *)
Definition is_ascii_whitespace (c : char) : bool :=
  N.eqb c 32 || N.eqb c 9 || N.eqb c 10 || N.eqb c 12 || N.eqb c 13.
Definition trim_end_by (p : char -> bool) (s : str) : str := rev (drop_while p (rev s)).
(** [str::trim_ascii_end] *)
Definition trim_ascii_end (s : str) : str := trim_end_by is_ascii_whitespace s.
(** [str::trim_start], [str::trim] *)
Definition trim_start (s : str) : str := drop_while is_unicode_whitespace s.
Definition trim (s : str) : str := trim_end_by is_unicode_whitespace (trim_start s).

(** [str::strip_prefix] *)
Definition strip_prefix (p s : str) : option str := if starts_with p s then Some (skipn (length p) s) else None.

(** crates/tombi-ast/src/impls/comment.rs:119-149, the [content] of the result; [&comment_text[1..]]
    panics on an empty text, which is no comment. *)
Definition value_directive (comment : str) : option str := strip_prefix (lit "tombi:") (trim_start (tl comment)).

Definition is_blank (c : char) : bool := N.eqb c 32 || N.eqb c 9.

(** crates/tombi-formatter/src/format/comment.rs:167-174: the repeated [#]; returns what is written and
    the current character with the rest, or [None] at the end of the text. *)
Fixpoint hashes (c : char) (rest : str) : str * option (char * str) :=
  if N.eqb c 35 then
    match rest with
    | [] => ([c], None)
    | n :: r => let '(w, o) := hashes n r in (c :: w, o)
    end
  else ([], Some (c, rest)).

(** crates/tombi-formatter/src/format/comment.rs:178-190 and the final [write!] *)
Definition comment_body (strip_leading_spaces : bool) (c : char) (rest : str) : str :=
  [32] ++
  (if negb (is_blank c) then c :: rest
   else if strip_leading_spaces then drop_while is_blank rest
   else rest).

(** crates/tombi-formatter/src/format/comment.rs:154-193, after the directives *)
Definition format_plain_comment (strip_leading_spaces : bool) (comment : str) : option str :=
  match trim_ascii_end comment with
  | [] => None
  | h :: [] => Some [h]
  | h :: c :: rest =>
      if N.eqb c 33 then
        match rest with
        | [] => Some [h; c]
        | n :: r => Some ([h; c] ++ comment_body strip_leading_spaces n r)
        end
      else if N.eqb c 35 then
        match hashes c rest with
        | (w, None) => Some (h :: w)
        | (w, Some (n, r)) => Some ([h] ++ w ++ comment_body strip_leading_spaces n r)
        end
      else Some ([h] ++ comment_body strip_leading_spaces c rest)
  end.

(** crates/tombi-formatter/src/format/comment.rs:125-194.  [dir] is
    [format_tombi_comment_directive_content] (crates/tombi-formatter/src/formatter.rs:202-213), which
    formats the directive's content as a TOML document of its own. *)
Definition format_comment (dir : str -> str) (style : comment_style) (strip_leading_spaces : bool) (comment : str) : option str :=
  match style with
  | CPreserve => Some comment
  | Normalize =>
      match strip_prefix (lit "#:schema ") comment with
      | Some uri => Some (lit "#:schema " ++ trim uri)
      | None =>
      match strip_prefix (lit "#:tombi ") comment with
      | Some content => Some (lit "#:tombi " ++ dir content)
      | None =>
      match value_directive comment with
      | Some content => Some (lit "# tombi: " ++ dir content)
      | None => format_plain_comment strip_leading_spaces comment
      end end end
  end.
