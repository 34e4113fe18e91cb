(** Specification vocabulary for the lexer, independent of the cursor. *)
From Coq Require Import String Ascii List NArith Bool.
From Verif Require Import Base SyntaxKind TextModel Regex LexerModel.
Import ListNotations.
Open Scope N_scope.
Open Scope list_scope.

(** Line and column after reading a text from the start: the number of line feeds, and the
    number of characters after the last line feed. *)
Definition count_nl (s : str) : N := N.of_nat (count_occ N.eq_dec s 10).
Definition after_last_nl (s : str) : str := rev (take_while (fun c => negb (N.eqb c 10)) (rev s)).
Definition position_after (s : str) : position :=
  Pos (count_nl s) (N.of_nat (length (after_last_nl s))).

(** [covers before s ts]: the tokens [ts] tile the text [s] that follows the text [before]: each one
    has a text, its span is the byte interval of that text in the whole source, its range is the
    line/column interval of it, and only the EOF token is empty. *)
Inductive covers : str -> str -> list token -> Prop :=
| covers_nil b : covers b [] []
| covers_cons b w s t ts :
    tspan t = MkSpan (len_bytes b) (len_bytes (b ++ w)) ->
    trange t = MkRange (position_after b) (position_after (b ++ w)) ->
    (tkind t <> EOF -> w <> []) ->
    covers (b ++ w) s ts ->
    covers b (w ++ s) (t :: ts).

(** The text of a byte span of the source, [&source[span]]. *)
Fixpoint take_bytes (n : N) (s : str) : option str :=
  if N.eqb n 0 then Some []
  else match s with
       | [] => None
       | c :: s' => if n <? len_utf8 c then None
                    else option_map (cons c) (take_bytes (n - len_utf8 c) s')
       end.
Definition slice (source : str) (sp : span) : option str :=
  match drop_bytes (sstart sp) source with
  | None => None
  | Some s => take_bytes (send sp - sstart sp) s
  end.

(** The pairing of errors with invalid tokens. *)
Definition is_invalid (t : token) : bool := kind_eqb (tkind t) INVALID_TOKEN.
Definition same_place (t : token) (e : lex_error) : Prop := tspan t = espan e /\ trange t = erange e.
